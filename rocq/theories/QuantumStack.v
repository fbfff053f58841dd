(* Stacking of qudit codes. *)
From mathcomp Require Import all_ssreflect all_algebra zify.
From Verif Require Import LinAlg RowReduce Classical ClassicalProofs ClassicalProofs2 Symplectic Quantum QuantumProofs
  QuantumPerm QuantumStab QuantumLogs QuantumOps.
Set Implicit Arguments.
Unset Strict Implicit.
Unset Printing Implicit Defensive.
Import GRing.Theory.
Local Open Scope ring_scope.

Section Stack.
Variable F : fieldType.
Notation vec := (seq F).
Notation mat := (seq (seq F)).

(* a Pauli string on the first n (last m) of n + m qudits *)
Definition injl (n m : nat) (r : vec) : vec := (take n r ++ vzero F m) ++ (drop n r ++ vzero F m).
Definition injr (n m : nat) (r : vec) : vec := (vzero F n ++ take m r) ++ (vzero F n ++ drop m r).

Lemma size_injl n m (r : vec) : size r = (n + n)%N -> size (injl n m r) = (n + m + (n + m))%N.
Proof. by move=> sr; rewrite !size_cat half_take // half_drop // size_vzero. Qed.
Lemma size_injr n m (r : vec) : size r = (m + m)%N -> size (injr n m r) = (n + m + (n + m))%N.
Proof. by move=> sr; rewrite !size_cat half_take // half_drop // size_vzero. Qed.

Definition EL n m : 'M[F]_(n + n, (n + m) + (n + m)) := block_mx (row_mx 1%:M 0) 0 0 (row_mx 1%:M 0).
Definition ER n m : 'M[F]_(m + m, (n + m) + (n + m)) := block_mx (row_mx 0 1%:M) 0 0 (row_mx 0 1%:M).

Lemma rv_halves n (r : vec) : size r = (n + n)%N -> rv (n + n) r = row_mx (rv n (take n r)) (rv n (drop n r)).
Proof. by move=> sr; rewrite -{1}(cat_take_drop n r) rv_cat // half_take. Qed.

Lemma rv_injl n m (r : vec) : size r = (n + n)%N -> rv _ (injl n m r) = rv (n + n) r *m EL n m.
Proof.
move=> sr; have sx := half_take sr; have sz := half_drop sr.
rewrite (rv_halves sr) mul_row_block !mulmx0 addr0 add0r !mul_mx_row !mulmx1 !mulmx0.
by rewrite rv_cat ?size_cat ?sx ?size_vzero // !rv_cat // rv_zero.
Qed.
Lemma rv_injr n m (r : vec) : size r = (m + m)%N -> rv _ (injr n m r) = rv (m + m) r *m ER n m.
Proof.
move=> sr; have sx := half_take sr; have sz := half_drop sr.
rewrite (rv_halves sr) mul_row_block !mulmx0 addr0 add0r !mul_mx_row !mulmx1 !mulmx0.
by rewrite rv_cat ?size_cat ?sx ?size_vzero // !rv_cat ?size_vzero // rv_zero.
Qed.

Lemma EL_gram n m : EL n m *m symJ F (n + m) *m (EL n m)^T = symJ F n.
Proof.
rewrite /EL block_mxEh symJ_split !tr_col_mx !trmx0 !mul_col_row !tr_row_mx !mul_row_col trmx1 trmx0.
by rewrite !mulmx0 !mul0mx !mul1mx !addr0 opp_block_mx add_block_mx !oppr0 !addr0 !add0r /symJ.
Qed.
Lemma ER_gram n m : ER n m *m symJ F (n + m) *m (ER n m)^T = symJ F m.
Proof.
rewrite /ER block_mxEh symJ_split !tr_col_mx !trmx0 !mul_col_row !tr_row_mx !mul_row_col trmx1 trmx0.
by rewrite !mulmx0 !mul0mx !mul1mx !add0r opp_block_mx add_block_mx !oppr0 !addr0 !add0r /symJ.
Qed.
Lemma ELR_gram n m : EL n m *m symJ F (n + m) *m (ER n m)^T = 0.
Proof.
rewrite /EL /ER !block_mxEh symJ_split !tr_col_mx !trmx0 !mul_col_row !tr_row_mx !mul_row_col trmx1 trmx0.
by rewrite !mulmx0 !mul0mx ?addr0 subrr.
Qed.
Lemma ERL_gram n m : ER n m *m symJ F (n + m) *m (EL n m)^T = 0.
Proof.
rewrite /EL /ER !block_mxEh symJ_split !tr_col_mx !trmx0 !mul_col_row !tr_row_mx !mul_row_col trmx1 trmx0.
by rewrite !mulmx0 !mul0mx ?addr0 subrr.
Qed.

Lemma symp_of n (u v : vec) x : size u = (n + n)%N -> size v = (n + n)%N ->
  rv (n + n) u *m symJ F n *m (rv (n + n) v)^T = x%:M -> symp n u v = x.
Proof. by move=> su sv; rewrite symp_rv // => /matrixP /(_ 0 0); rewrite !mxE eqxx !mulr1n. Qed.

Lemma symp_ll n m (u v : vec) : size u = (n + n)%N -> size v = (n + n)%N ->
  symp (n + m) (injl n m u) (injl n m v) = symp n u v.
Proof.
move=> su sv; apply: symp_of; rewrite ?size_injl // !rv_injl // trmx_mul !mulmxA.
by rewrite -(mulmxA _ (EL n m)) -(mulmxA _ (EL n m *m _)) EL_gram symp_rv.
Qed.
Lemma symp_rr n m (u v : vec) : size u = (m + m)%N -> size v = (m + m)%N ->
  symp (n + m) (injr n m u) (injr n m v) = symp m u v.
Proof.
move=> su sv; apply: symp_of; rewrite ?size_injr // !rv_injr // trmx_mul !mulmxA.
by rewrite -(mulmxA _ (ER n m)) -(mulmxA _ (ER n m *m _)) ER_gram symp_rv.
Qed.
Lemma symp_lr n m (u v : vec) : size u = (n + n)%N -> size v = (m + m)%N ->
  symp (n + m) (injl n m u) (injr n m v) = 0.
Proof.
move=> su sv; apply: symp_of; rewrite ?size_injr ?size_injl // rv_injl // rv_injr // trmx_mul !mulmxA.
by rewrite -(mulmxA _ (EL n m)) -(mulmxA _ (EL n m *m _)) ELR_gram mulmx0 mul0mx raddf0.
Qed.
Lemma symp_rl n m (u v : vec) : size u = (m + m)%N -> size v = (n + n)%N ->
  symp (n + m) (injr n m u) (injl n m v) = 0.
Proof. by move=> su sv; rewrite symp_anti symp_lr // oppr0. Qed.

(* two codes side by side *)
Definition side n m (A B : mat) : mat := map (injl n m) A ++ map (injr n m) B.

Lemma wf_side n m (A B : mat) : wf (n + n) A -> wf (m + m) B -> wf (n + m + (n + m)) (side n m A B).
Proof.
move=> /wfP wA /wfP wB; apply/wfP => r; rewrite mem_cat => /orP [] /mapP [u uA ->].
  by rewrite size_injl // wA.
by rewrite size_injr // wB.
Qed.

Lemma sp_side n m (A B : mat) : wf (n + n) A -> wf (m + m) B ->
  (sp (n + m + (n + m)) (side n m A B) :=:
   block_mx (sp (n + n) A) 0 0 (sp (m + m) B) *m col_mx (EL n m) (ER n m))%MS.
Proof.
move=> wA wB; apply: eqmx_trans (sp_cat _ _ _) _.
rewrite mul_block_col !mul0mx addr0 add0r.
suff [<- <-] : mx (size A) (n + m + (n + m)) (map (injl n m) A) = sp (n + n) A *m EL n m /\
              mx (size B) (n + m + (n + m)) (map (injr n m) B) = sp (m + m) B *m ER n m.
  apply: eqmx_trans (eqmx_sym (addsmxE _ _)) _; apply: eqmx_trans _ (addsmxE _ _).
  by apply: adds_eqmx; apply: sp_mx; rewrite size_map.
split; apply/row_matrixP => i; rewrite row_mul !row_of_mx (nth_map [::]) // ?rv_injl ?rv_injr //; exact: wf_nth.
Qed.

Lemma P_gram n m : let P := col_mx (EL n m) (ER n m) in
  P *m symJ F (n + m) *m P^T = block_mx (symJ F n) 0 0 (symJ F m).
Proof. by rewrite /= tr_col_mx mul_col_mx mul_col_row EL_gram ER_gram ELR_gram ERL_gram. Qed.

Lemma P_free n m : row_free (col_mx (EL n m) (ER n m)).
Proof.
have h : \rank (block_mx (symJ F n) 0 0 (symJ F m)) = (n + n + (m + m))%N.
  by rewrite rank_diag_block_mx !mxrank_unit ?symJ_unit.
by apply/eqP/anti_leq; rewrite rank_leq_row -{1}h -(P_gram n m) -mulmxA mxrankM_maxl.
Qed.

Lemma counts_side n m (A B : mat) k g k' g' : wf (n + n) A -> wf (m + m) B ->
  counts n A k g -> counts m B k' g' -> counts (n + m) (side n m A B) (k + k') (g + g').
Proof.
move=> wA wB /(countsG _ _ wA (eqmx_refl _)) [e1 e2] /(countsG _ _ wB (eqmx_refl _)) [e3 e4].
apply/(countsG _ _ (wf_side wA wB) (sp_side wA wB)).
rewrite (mxrankMfree _ (P_free n m)) rank_diag_block_mx; split; last by lia.
have := P_gram n m; move: (col_mx (EL n m) (ER n m)) => P /= eP.
rewrite trmx_mul !mulmxA -(mulmxA _ P) -(mulmxA _ (P *m _)) eP.
move: (symJ F n) (symJ F m) e1 e3 => J1 J2 e1 e3.
by rewrite tr_block_mx !trmx0 !mulmx_block ?(mulmx0, mul0mx, addr0, add0r) rank_diag_block_mx e1 e3; lia.
Qed.

Lemma side_comm n m (A B C D : mat) : wf (n + n) A -> wf (m + m) B -> wf (n + n) C -> wf (m + m) D ->
  (forall u v, u \in side n m A B -> v \in side n m C D -> symp (n + m) u v = 0) <->
  (forall u v, u \in A -> v \in C -> symp n u v = 0) /\ (forall u v, u \in B -> v \in D -> symp m u v = 0).
Proof.
move=> /wfP wA /wfP wB /wfP wC /wfP wD; split=> [h | [h1 h2] u v].
  split=> u v hu hv; [rewrite -(symp_ll m (wA _ hu) (wC _ hv)) | rewrite -(symp_rr n (wB _ hu) (wD _ hv))];
    by apply: h; rewrite mem_cat map_f ?orbT.
rewrite !mem_cat => /orP [] /mapP [u' hu ->] /orP [] /mapP [v' hv ->].
- by rewrite symp_ll; [exact: h1 | exact: wA | exact: wC].
- by rewrite symp_lr; [| exact: wA | exact: wD].
- by rewrite symp_rl; [| exact: wB | exact: wC].
by rewrite symp_rr; [exact: h2 | exact: wB | exact: wD].
Qed.

(* rows i and j of P and Q have product a if i = j and commute otherwise *)
Definition diag_gram (n : nat) (a : F) (P Q : mat) : Prop :=
  size P = size Q /\ forall i j, (i < size P)%N -> (j < size P)%N ->
    symp n (nth [::] P i) (nth [::] Q j) = if i == j then a else 0.

Lemma side_diag n m a (P Q P' Q' : mat) : wf (n + n) P -> wf (n + n) Q -> wf (m + m) P' -> wf (m + m) Q' ->
  diag_gram n a P Q -> diag_gram m a P' Q' -> diag_gram (n + m) a (side n m P P') (side n m Q Q').
Proof.
move=> wP wQ wP' wQ' [e h] [e' h']; split; first by rewrite !size_cat !size_map e e'.
move=> i j; rewrite size_cat !size_map => li lj; rewrite !nth_cat !size_map -e.
have bd t : (t < size P + size P')%N -> (size P <= t)%N -> (t - size P < size P')%N by lia.
have [i1 | i2] := ltnP i (size P); have [j1 | j2] := ltnP j (size P).
- by rewrite !(nth_map [::]) -?e // symp_ll ?h //; apply: wf_nth; rewrite -?e.
- rewrite !(nth_map [::]) -?e' -?e ?bd // symp_lr ?eqF //; [lia | exact: wf_nth |].
  by apply: wf_nth; rewrite -?e' ?bd.
- rewrite !(nth_map [::]) -?e' -?e ?bd // symp_rl ?eqF //; [lia | |].
    by apply: wf_nth; rewrite ?bd.
  by apply: wf_nth; rewrite -?e.
rewrite !(nth_map [::]) -?e' -?e ?bd // symp_rr ?h' ?bd //.
- by congr (if _ then _ else _); apply/eqP/eqP; lia.
- by apply: wf_nth; rewrite ?bd.
by apply: wf_nth; rewrite -?e' ?bd.
Qed.

(* -------------------------------------------------------------------------- lists of codes *)
Lemma hcat_cat (A B C D : mat) : size A = size C -> hcat (A ++ B) (C ++ D) = hcat A C ++ hcat B D.
Proof. by move=> e; rewrite /hcat zip_cat // map_cat. Qed.

Notation total ps := (sumn [seq p.1 | p <- ps]).
Definition wfq (ps : seq (nat * mat)) := all (fun p => wf (p.1 + p.1) p.2) ps.

Lemma stack_matE (ps : seq (nat * mat)) :
  stack_mat ps = hcat (block_diag [seq (p.1, x_part p.1 p.2) | p <- ps]) (block_diag [seq (p.1, z_part p.1 p.2) | p <- ps]).
Proof. by rewrite /stack_mat /stack /= -!map_comp. Qed.

Lemma size_block_diag (ps : seq (nat * mat)) : size (block_diag ps) = sumn [seq size p.2 | p <- ps].
Proof. by elim: ps => [|[n A] ps IH] //=; rewrite size_bdiag IH. Qed.

Lemma stack_mat_cons n (A : mat) ps : wf (n + n) A -> wfq ps ->
  stack_mat ((n, A) :: ps) = side n (total ps) A (stack_mat ps).
Proof.
move=> wA wps; rewrite !stack_matE /=.
have t (f : nat * mat -> mat) : sumn [seq p.1 | p <- [seq (p.1, f p) | p <- ps]] = total ps by rewrite -map_comp.
rewrite !t /bdiag hcat_cat ?size_map //; congr (_ ++ _).
  elim: A wA => [|r A IH] //= /andP [sr wA]; rewrite /hcat /=; congr (_ :: _); exact: IH.
have wx : wf (total ps) (block_diag [seq (p.1, x_part p.1 p.2) | p <- ps]).
  rewrite -(t (fun p => x_part p.1 p.2)); apply: wf_block_diag; apply/allP => p /mapP [q hq ->].
  by apply: wf_x_part; apply: (allP wps).
have e : size (block_diag [seq (p.1, x_part p.1 p.2) | p <- ps]) = size (block_diag [seq (p.1, z_part p.1 p.2) | p <- ps]).
  by rewrite !size_block_diag -!map_comp; congr sumn; apply: eq_map => p /=; rewrite size_x_part size_z_part.
move: wx e; move: (block_diag _) (block_diag _) => X Z.
elim: X Z => [|x X IH] [|z Z] //= /andP [/eqP sx wx] [e]; rewrite /hcat /=; congr (_ :: _); last exact: IH.
by rewrite /injr take_size_cat // drop_size_cat.
Qed.

Lemma wf_stack_mat ps : wfq ps -> wf (total ps + total ps) (stack_mat ps).
Proof.
elim: ps => [|[n A] ps IH] // /andP [wA wps]; rewrite stack_mat_cons //.
by apply: wf_side => //; apply: IH.
Qed.

Lemma stack_comm (ps qs : seq (nat * mat)) : wfq ps -> wfq qs -> map fst ps = map fst qs ->
  (forall u v, u \in stack_mat ps -> v \in stack_mat qs -> symp (total ps) u v = 0) <->
  (forall i, (i < size ps)%N -> forall u v, u \in (nth (0%N, [::]) ps i).2 -> v \in (nth (0%N, [::]) qs i).2 ->
     symp (nth (0%N, [::]) ps i).1 u v = 0).
Proof.
elim: ps qs => [|[n A] ps IH] [|[n' B] qs] // /andP [wA wps] /andP [wB wqs] [e1 e2].
rewrite /= in wA wB; rewrite -e1 in wB *; rewrite !stack_mat_cons // -e2.
rewrite (side_comm wA (wf_stack_mat wps) wB) ?(IH qs) // => [|]; last by rewrite e2; apply: wf_stack_mat.
split=> [[h1 h2] [|i] //= | h]; first exact: h2.
by split; [exact: (h 0%N) | move=> i li; exact: (h i.+1)].
Qed.

Lemma stack_diag a (ps qs : seq (nat * mat)) : wfq ps -> wfq qs -> map fst ps = map fst qs ->
  (forall i, (i < size ps)%N -> diag_gram (nth (0%N, [::]) ps i).1 a (nth (0%N, [::]) ps i).2 (nth (0%N, [::]) qs i).2) ->
  diag_gram (total ps) a (stack_mat ps) (stack_mat qs).
Proof.
elim: ps qs => [|[n A] ps IH] [|[n' B] qs] // /andP [wA wps] /andP [wB wqs] [e1 e2] h.
rewrite /= in wA wB; rewrite -e1 in wB *; rewrite !stack_mat_cons // -e2.
have w1 := wf_stack_mat wps; have w2 := wf_stack_mat wqs; rewrite -e2 in w2.
apply: (side_diag wA wB w1 w2); first exact: (h 0%N).
by apply: IH => // i li; exact: (h i.+1).
Qed.

Lemma stack_counts (ps : seq (nat * mat)) (ks gs : seq nat) : wfq ps -> size ks = size ps -> size gs = size ps ->
  (forall i, (i < size ps)%N -> counts (nth (0%N, [::]) ps i).1 (nth (0%N, [::]) ps i).2 (nth 0%N ks i) (nth 0%N gs i)) ->
  counts (total ps) (stack_mat ps) (sumn ks) (sumn gs).
Proof.
elim: ps ks gs => [|[n A] ps IH] [|k ks] [|g gs] // wps sk sg h.
  apply/(countsG _ _ (isT : wf (0 + 0) [::]) (eqmx_refl _)).
  have z m (M : 'M[F]_(m, 0)) : \rank M = 0%N by apply/eqP; rewrite -leqn0; exact: rank_leq_col.
  split; last by rewrite z.
  rewrite (_ : _ *m _ = 0) ?mxrank0 //.
  by move: (sp _ _) (symJ _ _) => M J; rewrite (_ : M = 0) ?mul0mx //; apply/matrixP => i [].
case/andP: wps => wA wps; rewrite stack_mat_cons //; apply: counts_side => //; [exact: wf_stack_mat | exact: (h 0%N) |].
by apply: IH; [|case: sk|case: sg|move=> i li; exact: (h i.+1)].
Qed.

(* ------------------------------------------------------------------------------- q_stack *)
Implicit Type c : qcode F.
Definition cdflt : qcode F := mkq 0 [::] (Some false).
Notation nc cs i := (nth cdflt cs i).

Lemma nth_pairs (f : qcode F -> mat) cs i : (i < size cs)%N ->
  nth (0%N, [::]) [seq (q_n c, f c) | c <- cs] i = (q_n (nc cs i), f (nc cs i)).
Proof. by move=> li; rewrite (nth_map cdflt). Qed.

Definition valid_logs c (L : mat) : Prop := logical_basis (q_n c) (q_dimension c) (q_mat c) L.

Lemma stack_code cs : (forall i, (i < size cs)%N -> q_ok (nc cs i)) ->
  let ps := [seq (q_n c, q_mat c) | c <- cs] in
  let code := mkq (sumn [seq q_n c | c <- cs]) (stack_mat ps) (Some (has (@q_sub F) cs)) in
  [/\ q_ok code, q_dimension code = sumn [seq q_dimension c | c <- cs],
      q_gauge_dimension code = sumn [seq q_gauge_dimension c | c <- cs]
    & commuting (q_n code) (q_mat code) <-> forall i, (i < size cs)%N -> commuting (q_n (nc cs i)) (q_mat (nc cs i))].
Proof.
move=> ok ps code.
have wps : wfq ps.
  by apply/(all_nthP (0%N, [::])) => i; rewrite size_map => li; rewrite nth_pairs //; have [] := ok _ li.
have en : sumn [seq q_n c | c <- cs] = total ps by rewrite -map_comp.
have hcomm : commuting (q_n code) (q_mat code) <-> forall i, (i < size cs)%N -> commuting (q_n (nc cs i)) (q_mat (nc cs i)).
  rewrite /commuting /= en stack_comm // size_map.
  by split=> h i li; have := h i li; rewrite nth_pairs.
have okc : q_ok code.
  apply: q_ok_mk; first by rewrite en; apply: wf_stack_mat.
  move=> [hs]; apply/hcomm => i li; have [_ h _ _ _] := ok _ li; apply: h.
  by apply: contraFF hs => hi; apply/(has_nthP cdflt); exists i.
have hc : counts (q_n code) (q_mat code) (sumn [seq q_dimension c | c <- cs]) (sumn [seq q_gauge_dimension c | c <- cs]).
  rewrite /= en; apply: stack_counts; rewrite ?size_map // => i li.
  by rewrite nth_pairs // !(nth_map cdflt) //; apply: dimension_counts; apply: ok.
have [wM _ _ _ _] := okc.
by have [e1 e2] := counts_unique wM (dimension_counts okc) hc.
Qed.

Lemma all_some_nth (T : Type) (s : seq (option T)) : (forall i, (i < size s)%N -> exists v, nth None s i = Some v) ->
  exists2 t, all_some s = Some t & size t = size s /\ forall d i, (i < size s)%N -> nth None s i = Some (nth d t i).
Proof.
elim: s => [|x s IH] h /=; first by exists [::].
have [v /= ->] := h 0%N isT.
have [t -> [st ht]] := IH (fun i li => h i.+1 li).
by exists (v :: t) => //; split; [rewrite /= st | move=> d [|i] //=; exact: ht].
Qed.

Lemma logical_halves n k (A L : mat) : logical_basis n k A L ->
  [/\ diag_gram n 0 (take k L) (take k L), diag_gram n 0 (drop k L) (drop k L), diag_gram n 1 (take k L) (drop k L)
    & size L = (k + k)%N].
Proof.
move=> lb; have [sX sY wX wY] := logical_basis_halves lb; have [[sL wL _] _] := lb.
have dp := proj1 lb; rewrite -(cat_take_drop k L) in dp.
have [h1 h2 h3] := proj1 (dual_pairsP sX sY wX wY) dp.
have ent P Q (M : 'M[F]_k) i j : size P = k -> size Q = k -> wf (n + n) P -> wf (n + n) Q -> (i < k)%N -> (j < k)%N ->
    mx k (n + n) P *m symJ F n *m (mx k (n + n) Q)^T = M ->
    exists i' j' : 'I_k, [/\ symp n (nth [::] P i) (nth [::] Q j) = M i' j', i = i' & j = j'].
  by move=> sP sQ wP wQ li lj e; exists (Ordinal li), (Ordinal lj); rewrite -e gram_ent.
split=> //; split; rewrite ?sX ?sY // => i j li lj.
- by have [i' [j' [-> _ _]]] := ent _ _ _ i j sX sX wX wX li lj h1; rewrite mxE; case: ifP.
- by have [i' [j' [-> _ _]]] := ent _ _ _ i j sY sY wY wY li lj h2; rewrite mxE; case: ifP.
by have [i' [j' [-> -> ->]]] := ent _ _ _ i j sX sY wX wY li lj h3; rewrite mxE -val_eqE /=; case: ifP.
Qed.

Lemma dual_of_diag n k (X Y : mat) : size X = k -> size Y = k -> wf (n + n) X -> wf (n + n) Y ->
  diag_gram n 0 X X -> diag_gram n 0 Y Y -> diag_gram n 1 X Y -> dual_pairs n k (X ++ Y).
Proof.
move=> sX sY wX wY [_ h1] [_ h2] [_ h3]; apply/(dual_pairsP sX sY wX wY).
split; apply/matrixP => i j; rewrite gram_ent // ?h1 ?h2 ?h3 ?sX ?sY // !mxE; first by case: ifP.
  by case: ifP.
by rewrite -val_eqE /=; case: ifP.
Qed.

Theorem stack_inherit cs (ls : seq mat) : (forall i, (i < size cs)%N -> q_ok (nc cs i)) -> size ls = size cs ->
  (forall i, (i < size cs)%N -> valid_logs (nc cs i) (nth [::] ls i)) ->
  logical_basis (sumn [seq q_n c | c <- cs]) (sumn [seq q_dimension c | c <- cs])
    (stack_mat [seq (q_n c, q_mat c) | c <- cs]) (stack_logs (zip (map (@q_n F) cs) ls)).
Proof.
move=> ok sl hl; set cls := zip _ _.
have scl : size cls = size cs by rewrite size_zip size_map sl minnn.
have ncl i : (i < size cs)%N -> nth (0%N, [::]) cls i = (q_n (nc cs i), nth [::] ls i).
  by move=> li; rewrite nth_zip ?size_map // (nth_map cdflt).
pose lx := [seq (p.1, take (size p.2 %/ 2)%N p.2) | p <- cls].
pose lz := [seq (p.1, drop (size p.2 %/ 2)%N p.2) | p <- cls].
have eL : stack_logs cls = stack_mat lx ++ stack_mat lz by rewrite !stack_matE /stack_logs -!map_comp.
have nlx i : (i < size cs)%N -> nth (0%N, [::]) lx i = (q_n (nc cs i), take (q_dimension (nc cs i)) (nth [::] ls i)).
  move=> li; rewrite (nth_map (0%N, [::])) ?scl // ncl //=; have [_ _ _ ->] := logical_halves (hl _ li).
  by congr (_, take _ _); rewrite divn2; lia.
have nlz i : (i < size cs)%N -> nth (0%N, [::]) lz i = (q_n (nc cs i), drop (q_dimension (nc cs i)) (nth [::] ls i)).
  move=> li; rewrite (nth_map (0%N, [::])) ?scl // ncl //=; have [_ _ _ ->] := logical_halves (hl _ li).
  by congr (_, drop _ _); rewrite divn2; lia.
have [slx slz] : size lx = size cs /\ size lz = size cs by rewrite !size_map scl.
have wlx : wfq lx.
  by apply/(all_nthP (0%N, [::])) => i; rewrite slx => li; rewrite nlx //=; have [] := logical_basis_halves (hl _ li).
have wlz : wfq lz.
  by apply/(all_nthP (0%N, [::])) => i; rewrite slz => li; rewrite nlz //=; have [] := logical_basis_halves (hl _ li).
have fx : map fst lx = map (@q_n F) cs.
  rewrite -map_comp; apply: (@eq_from_nth _ 0%N); rewrite !size_map ?scl // => i li.
  by rewrite (nth_map (0%N, [::])) ?scl // ncl // (nth_map cdflt).
have fz : map fst lz = map (@q_n F) cs by rewrite -fx -!map_comp.
have tx : total lx = sumn [seq q_n c | c <- cs] by rewrite fx.
have tz : total lz = sumn [seq q_n c | c <- cs] by rewrite fz.
have ssz (l : seq (nat * mat)) : wfq l -> size (stack_mat l) = sumn [seq size p.2 | p <- l].
  elim: l => [|[n A] l IH] // /andP [wA wl]; rewrite stack_mat_cons // size_cat (size_map (injl _ _)) (size_map (injr _ _)) IH //.
have sX : size (stack_mat lx) = sumn [seq q_dimension c | c <- cs].
  rewrite ssz //; congr sumn; apply: (@eq_from_nth _ 0%N); rewrite !size_map ?scl // => i li.
  by rewrite (nth_map (0%N, [::])) ?slx // nlx // (nth_map cdflt) //=; have [] := logical_basis_halves (hl _ li).
have sZ : size (stack_mat lz) = sumn [seq q_dimension c | c <- cs].
  rewrite ssz //; congr sumn; apply: (@eq_from_nth _ 0%N); rewrite !size_map ?scl // => i li.
  by rewrite (nth_map (0%N, [::])) ?slz // nlz // (nth_map cdflt) //=; have [] := logical_basis_halves (hl _ li).
have wX := wf_stack_mat wlx; have wZ := wf_stack_mat wlz; rewrite tx in wX; rewrite tz in wZ.
rewrite eL; split.
  apply: dual_of_diag => //; rewrite -?tx.
  - apply: stack_diag => // i; rewrite slx => li; rewrite nlx //; have [] := logical_halves (hl _ li) => //.
  - rewrite tx -tz; apply: stack_diag => // i; rewrite slz => li; rewrite nlz //; have [] := logical_halves (hl _ li) => //.
  apply: stack_diag => //; first by rewrite fx fz.
  by move=> i; rewrite slx => li; rewrite nlx // nlz //; have [] := logical_halves (hl _ li).
set ps := [seq _ | _ <- cs].
have wps : wfq ps.
  by apply/(all_nthP (0%N, [::])) => i; rewrite size_map => li; rewrite nth_pairs //; have [] := ok _ li.
have fp : map fst ps = map (@q_n F) cs by rewrite -map_comp.
have cm (l : seq (nat * mat)) : wfq l -> map fst l = map (@q_n F) cs -> 
   (forall i r, (i < size cs)%N -> r \in (nth (0%N, [::]) l i).2 -> r \in nth [::] ls i) ->
   forall u v, u \in stack_mat ps -> v \in stack_mat l -> symp (sumn [seq q_n c | c <- cs]) u v = 0.
  move=> wl fl sub; rewrite -fp; apply/stack_comm => //; first by rewrite fl fp.
  move=> i; rewrite size_map => li u v; rewrite nth_pairs //= => hu /(sub _ _ li) hv.
  by have [_ h] := hl _ li; apply: h.
move=> r l hr; rewrite mem_cat => /orP [] hm.
  by apply: (cm lx) hr hm => // i r' li; rewrite nlx //=; apply: mem_take.
by apply: (cm lz) hr hm => // i r' li; rewrite nlz //=; apply: mem_drop.
Qed.

Theorem q_stack_ok cs (inherit : bool) : (forall i, (i < size cs)%N -> q_ok (nc cs i)) ->
  (inherit -> forall i, (i < size cs)%N -> exists L, get_logical_ops (nc cs i) = Some L /\ valid_logs (nc cs i) L) ->
  exists c', [/\ q_stack cs inherit = Some c', q_ok c', q_n c' = sumn [seq q_n c | c <- cs],
                 q_mat c' = stack_mat [seq (q_n c, q_mat c) | c <- cs]
               & [/\ q_dimension c' = sumn [seq q_dimension c | c <- cs],
                     q_gauge_dimension c' = sumn [seq q_gauge_dimension c | c <- cs],
                     q_sub c' = has (@q_sub F) cs
                   & inherit -> exists2 L, q_logs c' = Some L & valid_logs c' L]].
Proof.
move=> ok hl; have [okc ek eg _] := stack_code ok; rewrite /q_stack.
case: inherit hl => hl /=; last by eexists; split; [reflexivity | exact: okc |..].
have hs i : (i < size [seq get_logical_ops c | c <- cs])%N -> exists v, nth None [seq get_logical_ops c | c <- cs] i = Some v.
  by rewrite size_map => li; have [L [e _]] := hl isT _ li; exists L; rewrite (nth_map cdflt).
have [ls -> [sl hls]] := all_some_nth hs; rewrite size_map in sl hls.
have hv i : (i < size cs)%N -> valid_logs (nc cs i) (nth [::] ls i).
  move=> li; have [L [e vL]] := hl isT _ li.
  by have := hls [::] i li; rewrite (nth_map cdflt) // e => -[<-].
have lb := stack_inherit ok sl hv; rewrite -ek in lb.
have [e1 ok1] := set_logical_ops_complete okc lb; have [wM _ _ _ _] := okc.
have [_ e2] := counts_unique wM (dimension_counts ok1) (dimension_counts okc).
eexists; split; [exact: e1 | exact: ok1 | by [] | by [] |]; split=> //; first by rewrite e2.
by move=> _; eexists; [reflexivity | exact: lb].
Qed.
End Stack.
