(* Conjugation, deformation, stacking and concatenation of qudit codes. *)
From mathcomp Require Import all_ssreflect all_algebra zify.
From Verif Require Import LinAlg RowReduce Classical ClassicalProofs ClassicalProofs2 Symplectic Quantum QuantumProofs
  QuantumPerm QuantumStab QuantumLogs.
Set Implicit Arguments.
Unset Strict Implicit.
Unset Printing Implicit Defensive.
Import GRing.Theory.
Local Open Scope ring_scope.

(* a linear map on Pauli strings that keeps all commutation relations, such as the action of a Clifford circuit *)
Definition symp_map (F : fieldType) (n : nat) (act : seq F -> seq F) : Prop :=
  [/\ forall u, size u = (n + n)%N -> size (act u) = (n + n)%N,
      forall u v, size u = (n + n)%N -> size v = (n + n)%N -> act (vadd u v) = vadd (act u) (act v),
      forall a u, size u = (n + n)%N -> act (vscale a u) = vscale a (act u)
    & forall u v, size u = (n + n)%N -> size v = (n + n)%N -> symp n (act u) (act v) = symp n u v].

Section Ops.
Variable F : fieldType.
Notation vec := (seq F).
Notation mat := (seq (seq F)).

(* ------------------------------------------------------------ counting with Gram matrices *)
Lemma rank_gram_eqmx n m p (A : 'M[F]_(m, n + n)) (B : 'M[F]_(p, n + n)) : (A :=: B)%MS ->
  \rank (A *m symJ F n *m A^T) = \rank (B *m symJ F n *m B^T).
Proof.
move=> e; have -> : \rank (A *m symJ F n *m A^T) = \rank (B *m symJ F n *m A^T).
  by rewrite (eqmxMr _ (eqmxMr _ e)).
by rewrite -mxrank_tr trmx_mul trmxK (eqmxMr _ e) -mxrank_tr trmx_mul trmxK.
Qed.

Lemma rank_center_gram n m (G : 'M[F]_(m, n + n)) :
  (\rank (G *m symJ F n *m G^T) + \rank (G :&: scomp G)%MS = \rank G)%N.
Proof.
rewrite -[RHS](mxrank_mul_ker G (G *m symJ F n)^T); congr (_ + _)%N.
by rewrite -[RHS]mxrank_tr trmx_mul trmxK.
Qed.

Lemma countsG n (A : mat) k g m (G : 'M[F]_(m, n + n)) : wf (n + n) A -> (sp (n + n) A :=: G)%MS ->
  counts n A k g <-> (\rank (G *m symJ F n *m G^T) = g + g /\ n + g = k + \rank G)%N.
Proof.
move=> wA e; rewrite (countsP _ _ wA); have := rank_center_gram (sp (n + n) A).
rewrite (rank_gram_eqmx e) e; lia.
Qed.

Lemma commG n (A : mat) m (G : 'M[F]_(m, n + n)) : wf (n + n) A -> (sp (n + n) A :=: G)%MS ->
  commuting n A <-> G *m symJ F n *m G^T = 0.
Proof.
move=> wA e; rewrite /commuting (commP wA wA).
by split=> /eqP h; apply/eqP; move: h; rewrite -!mxrank_eq0 (rank_gram_eqmx e).
Qed.

(* ------------------------------------------------------------------------- symplectic maps *)
Lemma symp_map_mx n (act : vec -> vec) : symp_map n act ->
  exists S : 'M[F]_(n + n), S *m symJ F n *m S^T = symJ F n /\
    forall u, size u = (n + n)%N -> rv (n + n) (act u) = rv (n + n) u *m S.
Proof.
case=> hs ha hc hp.
pose g (x : 'rV[F]_(n + n)) : 'rV[F]_(n + n) := rv (n + n) (act (lrv x)).
have lg : linear g.
  move=> a x y; rewrite /g.
  have -> : lrv (a *: x + y) = vadd (vscale a (lrv x)) (lrv y).
    by apply: (@rv_inj _ (n + n)); rewrite ?size_vadd ?size_vscale ?size_lrv // rv_add ?size_vscale ?size_lrv // rv_scale !rv_lrv.
  rewrite ha ?size_vscale ?size_lrv // hc ?size_lrv // rv_add ?size_vscale ?hs ?size_vscale ?size_lrv //.
  by rewrite rv_scale.
have eg u : size u = (n + n)%N -> rv (n + n) (act u) = rv (n + n) u *m lin1_mx (Linear lg).
  by move=> su; rewrite mul_rV_lin1 /= /g lrv_rv.
exists (lin1_mx (Linear lg)); split=> //; apply/matrixP => i j.
have s1 (k : 'I_(n + n)) : size (lrv (delta_mx 0 k : 'rV[F]_(n + n))) = (n + n)%N by rewrite size_lrv.
have := hp _ _ (s1 i) (s1 j); set u := lrv _; set v := lrv _ => e.
have : rv (n + n) (act u) *m symJ F n *m (rv (n + n) (act v))^T = rv (n + n) u *m symJ F n *m (rv (n + n) v)^T.
  by rewrite !symp_rv ?hs ?s1 // e.
rewrite !eg ?s1 // /u /v !rv_lrv trmx_mul !mulmxA => /matrixP /(_ 0 0).
have h (M : 'M[F]_(n + n)) : (delta_mx 0 i *m M *m (delta_mx 0 j)^T : 'M_1) 0 0 = M i j.
  by rewrite trmx_delta -rowE -colE !mxE.
set S := lin1_mx _; have -> : delta_mx 0 i *m S *m symJ F n *m S^T *m (delta_mx 0 j)^T =
  delta_mx 0 i *m (S *m symJ F n *m S^T) *m (delta_mx 0 j)^T :> 'M_1 by rewrite !mulmxA.
by rewrite !h.
Qed.

Lemma map_mx_symp n (act : vec -> vec) (S : 'M[F]_(n + n)) (A : mat) : wf (n + n) A ->
  (forall u, size u = (n + n)%N -> rv (n + n) (act u) = rv (n + n) u *m S) ->
  (sp (n + n) (map act A) :=: sp (n + n) A *m S)%MS.
Proof.
move=> wA h; suff -> : sp (n + n) A *m S = mx (size A) (n + n) (map act A) by apply: sp_mx; rewrite size_map.
apply/row_matrixP => i; rewrite row_mul !row_of_mx (nth_map [::]) // h //; exact: wf_nth.
Qed.

Lemma wf_map_act n (act : vec -> vec) (A : mat) : symp_map n act -> wf (n + n) A -> wf (n + n) (map act A).
Proof. by case=> hs _ _ _ /wfP w; apply/wfP => r /mapP [u uA ->]; apply/hs/w. Qed.

Lemma symp_map_comm n (act : vec -> vec) (A B : mat) : symp_map n act -> wf (n + n) A -> wf (n + n) B ->
  (forall u v, u \in A -> v \in B -> symp n u v = 0) ->
  forall u v, u \in map act A -> v \in map act B -> symp n u v = 0.
Proof.
case=> _ _ _ hp /wfP wA /wfP wB h u v /mapP [u' uA ->] /mapP [v' vB ->].
by rewrite hp ?h //; [apply: wA | apply: wB].
Qed.

Lemma symp_map_counts n (act : vec -> vec) (A : mat) k g : symp_map n act -> wf (n + n) A ->
  counts n (map act A) k g <-> counts n A k g.
Proof.
move=> hm wA; have [S [eS hS]] := symp_map_mx hm; have e := map_mx_symp wA hS.
have uS : S \in unitmx.
  have : symJ F n \in unitmx by apply: symJ_unit.
  by rewrite -eS !unitmx_mul => /andP [/andP []].
rewrite (countsG _ _ (wf_map_act hm wA) e) (countsG _ _ wA (eqmx_refl _)).
have -> : \rank (sp (n + n) A *m S) = \rank (sp (n + n) A) by rewrite mxrankMfree ?row_free_unit.
by rewrite trmx_mul !mulmxA -(mulmxA _ S) -(mulmxA _ (S *m _)) eS.
Qed.

Lemma symp_map_logical n (act : vec -> vec) (A L : mat) k : symp_map n act -> wf (n + n) A ->
  logical_basis n k A L -> logical_basis n k (map act A) (map act L).
Proof.
move=> hm wA [[sL wL dL] cL]; split; last exact: symp_map_comm hm wA wL cL.
split; rewrite ?size_map ?wf_map_act // => i j li lj; rewrite !(nth_map [::]) ?sL //.
by case: hm => _ _ _ ->; rewrite ?dL //; apply: wf_nth => //; rewrite sL.
Qed.

(* a code transformed by a symplectic map *)
Lemma transformed c (act : vec -> vec) : q_ok c -> symp_map (q_n c) act ->
  let code := mkq (q_n c) (map act (q_mat c)) (Some (q_sub c)) in
  [/\ q_ok code, q_dimension code = q_dimension c, q_gauge_dimension code = q_gauge_dimension c
    & forall l, q_logs c = Some l ->
        exists c', [/\ set_logical_ops code (map act l) true = Some c', q_ok c', q_n c' = q_n c, q_mat c' = map act (q_mat c)
                     & [/\ q_sub c' = q_sub c, q_logs c' = Some (map act l) & q_dimension c' = q_dimension c]]].
Proof.
move=> ok hm code; have [wA hs _ hl _] := ok; have wM := wf_map_act hm wA.
have okc : q_ok code.
  apply: q_ok_mk => // -[e]; exact: (symp_map_comm hm wA wA (hs e)).
have [ek eg] : q_dimension code = q_dimension c /\ q_gauge_dimension code = q_gauge_dimension c.
  apply: (counts_unique wA) (dimension_counts ok); apply/(symp_map_counts _ _ hm wA); exact: (dimension_counts okc).
split=> // l el; have [k [g [lb hc]]] := hl _ el.
have [e _] := counts_unique wA hc (dimension_counts ok); rewrite {}e in lb.
have := symp_map_logical hm wA lb; rewrite -ek => /(set_logical_ops_complete okc) [e1 e2].
by eexists; split; [exact: e1 | exact: e2 |..].
Qed.

(* ------------------------------------------------------------------------------ conjugated *)
Lemma size_swap_row n qs (r : vec) : size (swap_row n qs r) = (n + n)%N.
Proof. by rewrite size_cat !size_mkseq. Qed.

Lemma nth_swap_x n qs (r : vec) j : (j < n)%N ->
  nth 0 (swap_row n qs r) j = if j \in qs then nth 0 r (n + j) else nth 0 r j.
Proof. by move=> lj; rewrite nth_cat size_mkseq lj nth_mkseq. Qed.
Lemma nth_swap_z n qs (r : vec) j : (j < n)%N ->
  nth 0 (swap_row n qs r) (n + j) = if j \in qs then nth 0 r j else nth 0 r (n + j).
Proof. by move=> lj; rewrite nth_cat size_mkseq ltnNge leq_addr /= addKn nth_mkseq. Qed.

Lemma swap_symp n qs : (1 + 1 : F) = 0 -> symp_map n (@swap_row F n qs).
Proof.
move=> ch2; split=> [u _ | u v su sv | a u su | u v su sv]; first exact: size_swap_row.
- apply: (@eq_from_nth _ 0); rewrite size_swap_row ?size_vadd ?size_swap_row // => i li.
  rewrite nth_vadd ?size_swap_row //; have [lt | ge] := ltnP i n.
    by rewrite !nth_swap_x //; case: ifP => _; rewrite nth_vadd ?su.
  by rewrite -(subnKC ge) !nth_swap_z; try lia; case: ifP => _; rewrite nth_vadd ?su.
- apply: (@eq_from_nth _ 0); rewrite size_swap_row ?size_vscale ?size_swap_row // => i li.
  rewrite nth_vscale; have [lt | ge] := ltnP i n.
    by rewrite !nth_swap_x //; case: ifP => _; rewrite nth_vscale.
  by rewrite -(subnKC ge) !nth_swap_z; try lia; case: ifP => _; rewrite nth_vscale.
have opp (x : F) : - x = x by apply/eqP; rewrite eq_sym -addr_eq0 -{1}[x]mul1r -{2}[x]mul1r -mulrDl ch2 mul0r.
apply: eq_bigr => j _; rewrite !nth_swap_z // !nth_swap_x //; case: ifP => // _.
by rewrite -[LHS]opp opprB mulrC [X in _ - X]mulrC.
Qed.

Theorem conjugated_ok (c : qcode F) qs : (1 + 1 : F) = 0 -> q_ok c ->
  exists c', [/\ conjugated c qs = Some c', q_ok c', q_mat c' = map (swap_row (q_n c) qs) (q_mat c),
                 q_dimension c' = q_dimension c
               & [/\ q_n c' = q_n c, q_gauge_dimension c' = q_gauge_dimension c & q_sub c' = q_sub c]].
Proof.
move=> ch2 ok; have hm := swap_symp (q_n c) qs ch2; have [okc ek eg hl] := transformed ok hm.
rewrite /conjugated; case el: (q_logs c) => [l|]; last by eexists; split; [reflexivity | exact: okc |..].
have [c' [e1 ok' en em [es elg ed]]] := hl _ el; exists c'; split=> //; split=> //.
have [wA _ _ _ _] := ok; have hc := dimension_counts ok'; rewrite en em in hc.
by have [] := counts_unique wA (proj1 (symp_map_counts _ _ hm wA) hc) (dimension_counts ok).
Qed.

(* -------------------------------------------------------------------------------- deformed *)
Theorem deformed_ok (c : qcode F) act : q_ok c -> symp_map (q_n c) act ->
  exists c', [/\ deformed c act false = Some c', q_ok c', q_mat c' = map act (q_mat c),
                 q_dimension c' = q_dimension c
               & [/\ q_n c' = q_n c, q_gauge_dimension c' = q_gauge_dimension c, q_sub c' = q_sub c
                   & q_logs c' = omap (map act) (q_logs c)]].
Proof.
move=> ok hm; have [okc ek eg hl] := transformed ok hm.
rewrite /deformed; case el: (q_logs c) => [l|] /=; last by eexists; split; [reflexivity | exact: okc |..].
have [c' [e1 ok' en em [es elg ed]]] := hl _ el; exists c'; split=> //; split=> //.
have [wA _ _ _ _] := ok; have hc := dimension_counts ok'; rewrite en em in hc.
by have [] := counts_unique wA (proj1 (symp_map_counts _ _ hm wA) hc) (dimension_counts ok).
Qed.

Theorem deformed_preserve (c : qcode F) act c' : q_ok c -> symp_map (q_n c) act ->
  deformed c act true = Some c' ->
  (forall L, get_logical_ops c = Some L -> dual_pairs (q_n c) (q_dimension c) L) ->
  [/\ q_ok c', q_mat c' = map act (q_mat c), q_logs c' = get_logical_ops c & q_dimension c' = q_dimension c].
Proof.
move=> ok hm; rewrite /deformed; case: (get_logical_ops c) => [L|] // e hd.
have dp := hd _ erefl; have [sL wL _] := dp; have [okc ek eg _] := transformed ok hm.
have [/= eS _ hc ->] := set_logical_ops_ok okc wL e; split=> //; rewrite /= ?ek //.
have [wM h1 h2 _ _] := okc; have dc := dimension_counts okc; rewrite ek in dc.
split=> //= [l [<-] | _ [<-]].
  by do 2!eexists; split; [split; [exact: dp | exact: hc] | exact: dc].
by eexists; exact: dc.
Qed.
End Ops.
