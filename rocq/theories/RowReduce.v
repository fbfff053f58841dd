(* Gaussian elimination and null spaces of arrays over a field, modelling galois.FieldArray.row_reduce and .null_space
   (external to /repo; called from qldpc/codes/common.py:246,308,774 and many other places), and their correctness. *)
From mathcomp Require Import all_ssreflect all_algebra zify.
From Verif Require Import LinAlg.
Set Implicit Arguments.
Unset Strict Implicit.
Unset Printing Implicit Defensive.
Import GRing.Theory.
Local Open Scope ring_scope.

Section RowReduce.
Variable F : fieldType.
Notation vec := (seq F).
Notation mat := (seq (seq F)).

(* ------------------------------------------------------------------ model *)
(* subtract the multiple of the pivot row that clears column j; galois: A[idxs,:] -= outer(A[idxs,j], A[p,:]) *)
Definition clear_row (j : nat) (piv r : vec) : vec := vsub r (vscale (nth 0 r j) piv).

(* one column step of galois' row_reduce: the state is (finished rows, remaining rows) *)
Definition rr_step (st : mat * mat) (j : nat) : mat * mat :=
  let: (top, rest) := st in
  let i := find (fun r => nth 0 r j != 0) rest in
  if (i < size rest)%N then
    let piv0 := nth [::] rest i in
    let rest1 := set_nth [::] rest i (head [::] rest) in
    let piv := vscale (nth 0 piv0 j)^-1 piv0 in
    (rcons [seq clear_row j piv r | r <- top] piv, [seq clear_row j piv r | r <- behead rest1])
  else (top, rest).

(* galois: row_reduce(A, ncols=k) as the pair (first p rows, remaining rows) *)
Definition rr_upto (k : nat) (A : mat) : mat * mat := foldl rr_step ([::], A) (iota 0 k).

(* A.row_reduce() for an array with n columns *)
Definition row_reduce (n : nat) (A : mat) : mat := let st := rr_upto n A in st.1 ++ st.2.

(* qldpc/codes/common.py:245-249 and 773-777 (canonicalized): row reduce and drop zero rows *)
Definition canon (n : nat) (A : mat) : mat := [seq r <- row_reduce n A | vany r].

(* A.left_null_space() for an array with m rows and n columns: reduce [A | I] on the first n columns, keep the last
   m columns of the rows below the pivots, row reduce *)
Definition left_null_space (m n : nat) (A : mat) : mat :=
  let st := rr_upto n (hcat A (idl F m)) in
  row_reduce m [seq drop n r | r <- st.2].

(* A.null_space() for an array with n columns *)
Definition null_space (n : nat) (A : mat) : mat := left_null_space n (size A) (trl n A).

(* qldpc/math.py:69-74 (first_nonzero_cols), one row: np.argmax(r != 0), i.e. 0 for a zero row *)
Definition first_nz (r : vec) : nat :=
  let i := find (fun x : F => x != 0) r in if (i < size r)%N then i else 0%N.
Definition first_nonzero_cols (A : mat) : seq nat := map first_nz A.

(* ---------------------------------------------------------- specification *)
(* reduced row echelon form without zero rows *)
Definition is_rref (n : nat) (A : mat) : Prop :=
  [/\ wf n A,
      forall r, r \in A -> exists2 j, (j < n)%N & nth 0 r j <> 0,
      forall i j, (i < j < size A)%N -> (first_nz (nth [::] A i) < first_nz (nth [::] A j))%N
    & forall i k, (i < size A)%N -> (k < size A)%N -> ent A i (first_nz (nth [::] A k)) = (i == k)%:R].

(* the row space *)
Definition sp (n : nat) (A : mat) : 'M[F]_(size A, n) := mx (size A) n A.

(* ----------------------------------------------------------------- proofs *)
Lemma mem_sp n (A : mat) r : r \in A -> (rv n r <= sp n A)%MS.
Proof.
move=> rA; have lt_i : (index r A < size A)%N by rewrite index_mem.
have -> : rv n r = row (Ordinal lt_i) (sp n A) by rewrite row_of_mx /= nth_index.
exact: row_sub.
Qed.

Lemma sp_subP n m (A : mat) (B : 'M[F]_(m, n)) :
  reflect (forall r, r \in A -> (rv n r <= B)%MS) (sp n A <= B)%MS.
Proof.
apply: (iffP row_subP) => [h r rA | h i].
  have lt_i : (index r A < size A)%N by rewrite index_mem.
  by have := h (Ordinal lt_i); rewrite row_of_mx /= nth_index.
by rewrite row_of_mx; apply: h; apply: mem_nth.
Qed.

Lemma sp_cat n (A B : mat) : (sp n (A ++ B) :=: col_mx (sp n A) (sp n B))%MS.
Proof.
apply/eqmxP; apply/andP; split.
  apply/sp_subP => r; rewrite mem_cat -addsmxE => /orP [] h.
    exact: submx_trans (mem_sp n h) (addsmxSl _ _).
  exact: submx_trans (mem_sp n h) (addsmxSr _ _).
rewrite col_mx_sub; apply/andP; split; apply/sp_subP => r h; apply: mem_sp; rewrite mem_cat h ?orbT //.
Qed.

Lemma sp_cons n r (A : mat) : (sp n (r :: A) :=: rv n r + sp n A)%MS.
Proof.
apply/eqmxP; apply/andP; split.
  apply/sp_subP => s; rewrite inE => /orP [/eqP -> | h]; first exact: addsmxSl.
  exact: submx_trans (mem_sp n h) (addsmxSr _ _).
rewrite addsmx_sub; apply/andP; split; first by apply: mem_sp; rewrite mem_head.
by apply/sp_subP => s h; apply: mem_sp; rewrite inE h orbT.
Qed.

Lemma swap_out_perm (T : eqType) (x0 : T) (s : seq T) i : (i < size s)%N ->
  perm_eq s (nth x0 s i :: behead (set_nth x0 s i (head x0 s))).
Proof.
case: s => [|h t] //; case: i => [|k] /=; first by [].
rewrite ltnS => lt_k; rewrite set_nthE lt_k.
rewrite -{1}(cat_take_drop k t) (drop_nth x0 lt_k).
apply/permP => p; rewrite /= !count_cat /= ; lia.
Qed.

Lemma size_clear_row j (piv r : vec) : size piv = size r -> size (clear_row j piv r) = size r.
Proof. by move=> h; rewrite size_vsub // size_vscale. Qed.

Lemma nth_clear_row j (piv r : vec) c : size piv = size r ->
  nth 0 (clear_row j piv r) c = nth 0 r c - nth 0 r j * nth 0 piv c.
Proof. by move=> h; rewrite nth_vsub ?size_vscale // nth_vscale. Qed.

Lemma rv_clear_row n j (piv r : vec) : size piv = size r ->
  rv n (clear_row j piv r) = rv n r - nth 0 r j *: rv n piv.
Proof. by move=> h; rewrite rv_sub ?size_vscale // rv_scale. Qed.

(* the invariant after the columns < j *)
Record rr_inv (n : nat) (A : mat) (j : nat) (top rest : mat) (ps : seq nat) : Prop := RRInv {
  rri_wft : wf n top;
  rri_wfr : wf n rest;
  rri_size : (size top + size rest = size A)%N;
  rri_sp : (sp n (top ++ rest) :=: sp n A)%MS;
  rri_sps : size ps = size top;
  rri_sorted : sorted ltn ps;
  rri_lt : all (fun p => p < j)%N ps;
  rri_piv : forall t s, (t < size top)%N -> (s < size top)%N -> ent top t (nth 0%N ps s) = (t == s)%:R;
  rri_zl : forall t c, (t < size top)%N -> (c < nth 0%N ps t)%N -> ent top t c = 0;
  rri_rest : forall r c, r \in rest -> (c < j)%N -> nth 0 r c = 0
}.

Lemma rr_step_inv n A j top rest ps : (j < n)%N -> rr_inv n A j top rest ps ->
  exists ps', rr_inv n A j.+1 (rr_step (top, rest) j).1 (rr_step (top, rest) j).2 ps'.
Proof.
move=> lt_jn [wt wr sz spe sps srt lts piv zl zr]; rewrite /rr_step.
set a := fun r : vec => nth 0 r j != 0.
case: ifP => [lt_i | ge_i] /=; last first.
  exists ps; split=> //.
    by apply/allP => p /(allP lts) h; rewrite ltnS ltnW.
  move=> r c rr; rewrite ltnS leq_eqVlt => /orP [/eqP -> | ]; last exact: zr.
  by have := negbT ge_i; rewrite -has_find => /hasPn /(_ r rr) /negbNE /eqP.
set i := find a rest in lt_i *; set p0 := nth [::] rest i.
set rest1 := set_nth _ _ _ _; set pv := vscale _ _.
have p0rest : p0 \in rest by apply: mem_nth.
have sp0 : size p0 = n by move/wfP: wr; apply.
have p0j : nth 0 p0 j != 0 by apply: (@nth_find _ [::] a); rewrite has_find.
have spv : size pv = n by rewrite size_vscale.
have pvj : nth 0 pv j = 1 by rewrite nth_vscale mulVf.
have pvc c : (c < j)%N -> nth 0 pv c = 0 by move=> h; rewrite nth_vscale (zr p0 c) // mulr0.
have perm : perm_eq rest (p0 :: behead rest1) by apply: swap_out_perm.
have subr1 r : r \in behead rest1 -> r \in rest by move=> h; rewrite (perm_mem perm) inE h orbT.
have swt r : r \in top -> size pv = size r by move=> h; rewrite spv; move/wfP: wt => ->.
have swr r : r \in rest -> size pv = size r by move=> h; rewrite spv; move/wfP: wr => ->.
have szr : size rest = (size (behead rest1)).+1 by rewrite (perm_size perm).
exists (rcons ps j); split.
- rewrite -cats1 wf_cat /= spv eqxx /= andbT; apply/wfP => r /mapP [s st ->].
  by rewrite (size_clear_row _ (swt _ st)) -(swt _ st).
- apply/wfP => r /mapP [s /subr1 st ->]; by rewrite (size_clear_row _ (swr _ st)) -(swr _ st).
- by rewrite size_rcons !size_map addSn -addnS -szr.
- apply: eqmx_trans spe; apply/eqmxP; apply/andP; split; apply/sp_subP => r.
    rewrite mem_cat mem_rcons inE -orbA.
    have pvin : (rv n pv <= sp n (top ++ rest))%MS.
      by rewrite rv_scale scalemx_sub // mem_sp // mem_cat p0rest orbT.
    case/or3P => [/eqP -> // | /mapP [s st ->] | /mapP [s /subr1 st ->]].
      rewrite (rv_clear_row _ _ (swt _ st)) addmx_sub // ?eqmx_opp ?scalemx_sub //.
      by apply: mem_sp; rewrite mem_cat st.
    rewrite (rv_clear_row _ _ (swr _ st)) addmx_sub // ?eqmx_opp ?scalemx_sub //.
    by apply: mem_sp; rewrite mem_cat st orbT.
  set B := rcons _ _ ++ _.
  have pvin : (rv n pv <= sp n B)%MS by apply: mem_sp; rewrite mem_cat mem_rcons mem_head.
  have p0in : (rv n p0 <= sp n B)%MS.
    have -> : rv n p0 = nth 0 p0 j *: rv n pv by rewrite rv_scale scalerA divff // scale1r.
    exact: scalemx_sub.
  have cl s : size pv = size s -> clear_row j pv s \in B -> (rv n s <= sp n B)%MS.
    move=> ss h; have -> : rv n s = rv n (clear_row j pv s) + nth 0 s j *: rv n pv by rewrite rv_clear_row // subrK.
    by rewrite addmx_sub ?mem_sp // scalemx_sub.
  rewrite mem_cat => /orP [rt | ].
    apply: cl; first exact: swt.
    by rewrite mem_cat mem_rcons inE map_f ?orbT.
  rewrite (perm_mem perm) inE => /orP [/eqP -> // | rr].
  apply: cl; first by apply: swr; apply: subr1.
  by rewrite mem_cat map_f ?orbT.
- by rewrite !size_rcons size_map sps.
- case: ps sps srt lts { piv zl } => [|q ps] sps srt lts //=.
  rewrite rcons_path; apply/andP; split; first exact: srt.
  by move/allP: lts; apply; apply: mem_last.
- rewrite all_rcons ltnSn /=; apply/allP => p /(allP lts) h; by rewrite ltnS ltnW.
- move=> t s; rewrite size_rcons size_map !ltnS => le_t le_s.
  rewrite /ent !nth_rcons size_map sps.
  have psj q : (q < size top)%N -> (nth 0%N ps q < j)%N.
    by move=> h; move/allP: lts; apply; apply: mem_nth; rewrite sps.
  case: (ltnP t (size top)) => [lt_t | ge_t]; last first.
    have {}ge_t : t = size top by apply/eqP; rewrite eqn_leq le_t.
    subst t; rewrite eqxx; case: (ltnP s (size top)) => [lt_s | ge_s].
      by rewrite pvc ?psj // gtn_eqF.
    have {}ge_s : s = size top by apply/eqP; rewrite eqn_leq le_s.
    by subst s; rewrite eqxx pvj.
  rewrite (nth_map [::]) // nth_clear_row; last by apply: swt; apply: mem_nth.
  case: (ltnP s (size top)) => [lt_s | ge_s].
    rewrite pvc ?psj // mulr0 subr0; exact: piv.
  have {}ge_s : s = size top by apply/eqP; rewrite eqn_leq le_s.
  subst s; by rewrite eqxx pvj mulr1 subrr ltn_eqF.
- move=> t c; rewrite size_rcons size_map ltnS /ent !nth_rcons size_map sps.
  case: (ltnP t (size top)) => [lt_t _ lt_c | ge_t le_t].
    rewrite (nth_map [::]) // nth_clear_row; last by apply: swt; apply: mem_nth.
    have lt_cj : (c < j)%N.
      by apply: ltn_trans lt_c _; move/allP: lts; apply; apply: mem_nth; rewrite sps.
    by rewrite (pvc _ lt_cj) mulr0 subr0; apply: zl.
  have {le_t} {}ge_t : t = size top by apply/eqP; rewrite eqn_leq le_t.
  by subst t; rewrite eqxx; apply: pvc.
- move=> r c /mapP [s /subr1 st ->]; rewrite ltnS leq_eqVlt (nth_clear_row _ _ (swr _ st)).
  case/orP => [/eqP -> | lt_c]; first by rewrite pvj mulr1 subrr.
  by rewrite (pvc _ lt_c) mulr0 subr0; apply: zr.
Qed.

Lemma rr_upto_inv n A k : (k <= n)%N -> wf n A ->
  exists ps, rr_inv n A k (rr_upto k A).1 (rr_upto k A).2 ps.
Proof.
move=> le_k wA; rewrite /rr_upto; elim: k le_k => [|k IH] le_k.
  exists [::]; split=> //=; exact: eqmx_refl.
have [ps inv] := IH (ltnW le_k).
rewrite -addn1 iotaD foldl_cat add0n /= addn1.
case: (foldl rr_step ([::], A) (iota 0 k)) inv => top rest inv.
exact: rr_step_inv le_k inv.
Qed.

(* consequences for a full reduction *)
Lemma first_nz_eq (r : vec) j : (j < size r)%N -> nth 0 r j != 0 -> (forall c, (c < j)%N -> nth 0 r c = 0) ->
  first_nz r = j.
Proof.
move=> lt_j nz z; rewrite /first_nz.
have hs : has (fun x : F => x != 0) r by apply/hasP; exists (nth 0 r j) => //; apply: mem_nth.
have lt_f : (find (fun x : F => x != 0%R) r < size r)%N by rewrite -has_find.
rewrite lt_f; apply/eqP; rewrite eqn_leq; apply/andP; split; rewrite leqNgt; apply/negP => lt.
  by have := before_find 0 lt; rewrite nz.
by have := nth_find 0 hs; rewrite z // eqxx.
Qed.

Lemma first_nzP (r : vec) : vany r ->
  [/\ (first_nz r < size r)%N, nth 0 r (first_nz r) != 0 & forall c, (c < first_nz r)%N -> nth 0 r c = 0].
Proof.
move=> hs; rewrite /first_nz.
have lt_f : (find (fun x : F => x != 0%R) r < size r)%N by rewrite -has_find.
rewrite lt_f; split=> //; first exact: (nth_find 0 hs).
by move=> c /(before_find 0) /negbFE /eqP.
Qed.

Lemma vany_nth (r : vec) j : nth 0 r j != 0 -> vany r.
Proof.
move=> h; apply/hasP; exists (nth 0 r j) => //; apply: mem_nth.
by rewrite ltnNge; apply: contra h => le; rewrite nth_default.
Qed.

Lemma inv_first_nz n A j top rest ps t : rr_inv n A j top rest ps -> (j <= n)%N -> (t < size top)%N ->
  first_nz (nth [::] top t) = nth 0%N ps t.
Proof.
move=> [wt _ _ _ sps _ lts piv zl _] le_j lt_t; apply: first_nz_eq.
- rewrite (wf_nth wt) //; apply: leq_trans le_j; move/allP: lts; apply; apply: mem_nth; by rewrite sps.
- by have := piv t t lt_t lt_t; rewrite /ent eqxx => ->; rewrite oner_eq0.
- by move=> c; apply: zl.
Qed.

Lemma inv_rref n A j top rest ps : (j <= n)%N -> rr_inv n A j top rest ps -> is_rref n top.
Proof.
move=> le_j inv; have [wt wr sz spe sps srt lts piv zl zr] := inv; split=> //.
- move=> r /(nthP [::]) [t lt_t <-]; exists (nth 0%N ps t).
    by apply: leq_trans le_j; move/allP: lts; apply; apply: mem_nth; rewrite sps.
  by have := piv t t lt_t lt_t; rewrite /ent eqxx => ->; apply/eqP; rewrite oner_eq0.
- move=> i k /andP [lt_ik lt_k]; have lt_i := ltn_trans lt_ik lt_k.
  rewrite !(inv_first_nz inv) //.
  by apply: (sorted_ltn_nth ltn_trans) => //; rewrite inE sps.
- by move=> i k lt_i lt_k; rewrite (inv_first_nz inv) // piv.
Qed.

Lemma inv_rest0 n A top rest ps : rr_inv n A n top rest ps -> rest = nseq (size rest) (vzero F n).
Proof.
move=> [_ wr _ _ _ _ _ _ _ zr]; apply/all_pred1P/allP => r rr; apply/eqP.
have sr : size r = n by move/wfP: wr; apply.
apply: (@eq_from_nth _ 0); first by rewrite sr size_vzero.
by move=> c; rewrite sr => lt_c; rewrite (zr r) // nth_vzero.
Qed.

Lemma vany_vzero n : vany (vzero F n) = false.
Proof. by apply/negbTE/hasPn => x /nseqP [-> _]; rewrite eqxx. Qed.

Lemma canon_eq n A : wf n A -> canon n A = (rr_upto n A).1.
Proof.
move=> wA; have [ps inv] := rr_upto_inv (leqnn n) wA.
rewrite /canon /row_reduce filter_cat (inv_rest0 inv) filter_nseq vany_vzero cats0.
apply/all_filterP/allP => r /(nthP [::]) [t lt_t <-].
have := rri_piv inv lt_t lt_t; rewrite /ent eqxx => h.
by apply: (@vany_nth _ (nth 0%N ps t)); rewrite h oner_eq0.
Qed.

Lemma canon_rref n A : wf n A -> is_rref n (canon n A).
Proof. by move=> wA; rewrite canon_eq //; have [ps inv] := rr_upto_inv (leqnn n) wA; apply: inv_rref inv. Qed.

Lemma wf_canon n A : wf n A -> wf n (canon n A).
Proof. by case/canon_rref. Qed.

Lemma row_reduce_canon n A : wf n A -> row_reduce n A = canon n A ++ nseq (size A - size (canon n A)) (vzero F n).
Proof.
move=> wA; rewrite canon_eq // /row_reduce; have [ps inv] := rr_upto_inv (leqnn n) wA.
by rewrite -(rri_size inv) addKn -(inv_rest0 inv).
Qed.

Lemma size_canon_le n A : wf n A -> (size (canon n A) <= size A)%N.
Proof.
move=> wA; rewrite canon_eq //; have [ps inv] := rr_upto_inv (leqnn n) wA.
by rewrite -(rri_size inv) leq_addr.
Qed.

Lemma size_row_reduce n A : wf n A -> size (row_reduce n A) = size A.
Proof. by move=> wA; rewrite row_reduce_canon // size_cat size_nseq subnKC // size_canon_le. Qed.

Lemma wf_row_reduce n A : wf n A -> wf n (row_reduce n A).
Proof. move=> wA; rewrite row_reduce_canon // wf_cat wf_canon //=; exact: wf_zerol. Qed.

Lemma sp_zeros n k : sp n (nseq k (vzero F n)) = 0.
Proof. by apply/row_matrixP => i; rewrite row_of_mx nth_nseq -[X in (i < X)%N](size_nseq k (vzero F n)) ltn_ord rv_zero row0. Qed.

Lemma sp_row_reduce n A : wf n A -> (sp n (row_reduce n A) :=: sp n A)%MS.
Proof.
move=> wA; rewrite /row_reduce; have [ps inv] := rr_upto_inv (leqnn n) wA; exact: rri_sp inv.
Qed.

Lemma sp_canon n A : wf n A -> (sp n (canon n A) :=: sp n A)%MS.
Proof.
move=> wA; apply: eqmx_trans (sp_row_reduce wA); rewrite row_reduce_canon //.
apply: eqmx_sym; apply: eqmx_trans (sp_cat _ _ _) _; rewrite sp_zeros.
by apply/eqmxP; rewrite col_mx_sub submx_refl sub0mx /= -addsmxE addsmxSl.
Qed.

(* selection of columns as a matrix *)
Definition selmx (n m : nat) (c : seq nat) : 'M[F]_(n, m) := \matrix_(i, j) ((i : nat) == nth 0%N c j)%:R.

Lemma mulmx_selmx p n m (A : 'M[F]_(p, n)) (c : seq nat) i (k : 'I_m) (j : 'I_n) :
  nth 0%N c k = j -> (A *m selmx n m c) i k = A i j.
Proof.
move=> e; rewrite mxE (bigD1 j) //= mxE e eqxx mulr1 big1 ?addr0 // => l nl.
by rewrite mxE e; case: eqP => [h | _]; rewrite ?mulr0 //; case/eqP: nl; apply: val_inj.
Qed.

Lemma rref_first_lt n A i : is_rref n A -> (i < size A)%N -> (first_nz (nth [::] A i) < n)%N.
Proof.
move=> [wA nz _ _] lt_i; have rA : nth [::] A i \in A by apply: mem_nth.
have [j lt_j /eqP h] := nz _ rA; have [] := first_nzP (vany_nth h).
by rewrite (wf_nth wA).
Qed.

Lemma rref_sel n A : is_rref n A -> sp n A *m selmx n (size A) (first_nonzero_cols A) = 1%:M.
Proof.
move=> rA; have [wA nz srt piv] := rA; apply/matrixP => i k.
have lt_f := rref_first_lt rA (ltn_ord k).
rewrite (@mulmx_selmx _ _ _ _ _ _ k (Ordinal lt_f)) /=; last by rewrite (nth_map [::]).
by rewrite !mxE /= piv.
Qed.

Lemma rref_free n A : is_rref n A -> row_free (sp n A).
Proof. by move=> rA; apply/row_freeP; exists (selmx n (size A) (first_nonzero_cols A)); apply: rref_sel. Qed.

Lemma rref_rank n A : is_rref n A -> \rank (sp n A) = size A.
Proof. by move/rref_free; rewrite /row_free => /eqP. Qed.

Lemma size_canon n A : wf n A -> size (canon n A) = \rank (sp n A).
Proof. by move=> wA; rewrite -(rref_rank (canon_rref wA)) (sp_canon wA). Qed.

(* a vector in the row space of a reduced matrix is determined by its entries at the pivots *)
Lemma rref_coord n A p (v : 'M[F]_(p, n)) : is_rref n A -> (v <= sp n A)%MS ->
  v = v *m selmx n (size A) (first_nonzero_cols A) *m sp n A.
Proof. by move=> rA /submxP [c ->]; rewrite -[c *m _ *m selmx _ _ _]mulmxA (rref_sel rA) mulmx1. Qed.

Lemma rref_zero n A (v : 'rV[F]_n) : is_rref n A -> (v <= sp n A)%MS ->
  (forall i (j : 'I_n), (i < size A)%N -> first_nz (nth [::] A i) = j -> v 0 j = 0) -> v = 0.
Proof.
move=> rA sv h; rewrite (rref_coord rA sv).
suff -> : v *m selmx n (size A) (first_nonzero_cols A) = 0 by rewrite mul0mx.
apply/rowP => i; have lt_f := rref_first_lt rA (ltn_ord i).
rewrite (@mulmx_selmx _ _ _ _ _ _ i (Ordinal lt_f)) /=; last by rewrite (nth_map [::]).
by rewrite (h i) ?mxE.
Qed.

(* the leading column of every nonzero vector of the row space is a pivot *)
Lemma rref_lead n A (v : 'rV[F]_n) (j : 'I_n) : is_rref n A -> (v <= sp n A)%MS ->
  v 0 j != 0 -> (forall c : 'I_n, (c < j)%N -> v 0 c = 0) ->
  exists2 i, (i < size A)%N & first_nz (nth [::] A i) = j.
Proof.
move=> rA /submxP [c def_v] nz z; have [wA nzr srt piv] := rA.
have coord i (lt_i : (i < size A)%N) : v 0 (Ordinal (rref_first_lt rA lt_i)) = c 0 (Ordinal lt_i).
  rewrite def_v mxE (bigD1 (Ordinal lt_i)) //= mxE /= piv // eqxx mulr1 big1 ?addr0 // => k nk.
  rewrite mxE /= piv //; suff /negbTE -> : (k : nat) != i by rewrite mulr0.
  by apply: contra nk => /eqP h; apply/eqP/val_inj.
case: (pickP (fun i : 'I_(size A) => first_nz (nth [::] A i) == j)) => [i /eqP h | none]; first by exists i.
case/eqP: nz; rewrite def_v mxE big1 // => i _.
case: (ltngtP (first_nz (nth [::] A i)) j) => [lt | gt | eq].
- have := coord i (ltn_ord i); rewrite z // => e0.
  suff -> : c 0 i = 0 by rewrite mul0r.
  by rewrite e0; congr (c _ _); apply: val_inj.
- have rA' : nth [::] A i \in A by apply: mem_nth.
  have [j' lt_j' /eqP h] := nzr _ rA'; have [_ _ zz] := first_nzP (vany_nth h).
  by rewrite mxE /ent zz // mulr0.
- by have := none i; rewrite eq eqxx.
Qed.

Lemma rref_lead_row n A i : is_rref n A -> (i < size A)%N ->
  forall c, (c < first_nz (nth [::] A i))%N -> ent A i c = 0.
Proof.
move=> [wA nz _ _] lt_i; have rA' : nth [::] A i \in A by apply: mem_nth.
by have [j' lt_j' /eqP h] := nz _ rA'; have [] := first_nzP (vany_nth h).
Qed.

Lemma rref_sorted n A : is_rref n A -> sorted ltn (first_nonzero_cols A).
Proof.
move=> [_ _ srt _]; rewrite (sorted_pairwise ltn_trans); apply/(pairwiseP 0%N) => i j; rewrite !inE !size_map => hi hj lt_ij.
by rewrite !(nth_map [::]) //; apply: srt; rewrite lt_ij.
Qed.

Lemma rref_lead_mem n A B : is_rref n A -> is_rref n B -> (sp n A <= sp n B)%MS ->
  {subset first_nonzero_cols A <= first_nonzero_cols B}.
Proof.
move=> rA rB sAB p /mapP [r /(nthP [::]) [i lt_i <-] ->].
have lt_f := rref_first_lt rA lt_i.
have sub : (row (Ordinal lt_i) (sp n A) <= sp n B)%MS by apply: submx_trans (row_sub _ _) sAB.
have [||k lt_k /= <-] := @rref_lead n B _ (Ordinal lt_f) rB sub.
- by rewrite !mxE /=; have [_ _ _ piv] := rA; rewrite piv // eqxx oner_eq0.
- by move=> c lt_c; rewrite !mxE /=; apply: (rref_lead_row rA).
by apply: map_f; apply: mem_nth.
Qed.

Theorem rref_unique n A B : is_rref n A -> is_rref n B -> (sp n A :=: sp n B)%MS -> A = B.
Proof.
move=> rA rB eAB.
have /andP [sAB sBA] := introT eqmxP eAB.
have epiv : first_nonzero_cols A = first_nonzero_cols B.
  apply: (irr_sorted_eq ltn_trans ltnn (rref_sorted rA) (rref_sorted rB)) => p.
  by apply/idP/idP; [apply: (rref_lead_mem rA rB sAB) | apply: (rref_lead_mem rB rA sBA)].
have sz : size A = size B by rewrite -(size_map first_nz) -/(first_nonzero_cols A) epiv size_map.
have [wA _ _ pivA] := rA; have [wB _ _ pivB] := rB.
apply: (@eq_from_nth _ [::]) => // i lt_i.
apply: (@rv_inj _ n); rewrite ?(wf_nth wA) ?(wf_nth wB) -?sz //.
apply/eqP; rewrite -subr_eq0; apply/eqP.
apply: (rref_zero rA).
  rewrite addmx_sub ?eqmx_opp //; first by apply: mem_sp; rewrite mem_nth.
  by apply: submx_trans sBA; apply: mem_sp; rewrite mem_nth // -sz.
move=> k j lt_k hj; rewrite !mxE -hj.
have e : first_nz (nth [::] A k) = first_nz (nth [::] B k).
  by have := congr1 (fun s => nth 0%N s k) epiv; rewrite !(nth_map [::]) -?sz.
have := pivA i k lt_i lt_k; rewrite /ent => ->.
by rewrite e; have := pivB i k; rewrite /ent -sz => -> //; rewrite subrr.
Qed.

Lemma canon_id n A : is_rref n A -> canon n A = A.
Proof.
move=> rA; have [wA _ _ _] := rA; apply: (rref_unique (canon_rref wA) rA); exact: sp_canon.
Qed.

(* ----------------------------------------------------------- null spaces *)
Lemma left_null_spec m n (A : mat) : size A = m -> wf n A ->
  [/\ wf m (left_null_space m n A),
      is_rref m (left_null_space m n A)
    & (sp m (left_null_space m n A) :=: kermx (mx m n A))%MS].
Proof.
move=> sA wA; rewrite /left_null_space.
set AI := hcat A (idl F m).
have sAI : size AI = m by rewrite size_hcat ?size_idl.
have wAI : wf (n + m) AI by apply: wf_hcat => //; apply: wf_idl.
have [ps inv] := rr_upto_inv (leq_addr m n) wAI.
case: (rr_upto n AI) inv => top rest /= inv.
have [wt wr sz spe sps srt lts piv zl zr] := inv.
set N := [seq drop n r | r <- rest].
have wN : wf m N.
  by apply/wfP => r /mapP [s sr ->]; rewrite size_drop; move/wfP: wr => -> //; rewrite addKn.
(* every vector of the row space has the form (w A | w) *)
have spAI : (sp (n + m) AI :=: row_mx (mx m n A) 1%:M)%MS.
  have e : sp (n + m) AI = castmx (esym sAI, erefl) (row_mx (mx m n A) 1%:M).
    apply/matrixP => i j; rewrite castmxE mxE /= cast_ord_id -(mx_idl F m).
    by rewrite -(@mx_hcat _ m n m) ?size_idl // mxE /=.
  rewrite e; case: _ / (esym sAI); rewrite castmx_id; exact: eqmx_refl.
have form (x : 'rV[F]_(n + m)) : (x <= sp (n + m) (top ++ rest))%MS -> lsubmx x = rsubmx x *m mx m n A.
  rewrite spe spAI => /submxP [w ->]; rewrite mul_mx_row row_mxKl row_mxKr.
  by rewrite -mulmxA mul1mx.
have split_rest r : r \in rest -> rv (n + m) r = row_mx 0 (rv m (drop n r)).
  move=> rr; apply/rowP => j; rewrite !mxE; case: splitP => k ->; rewrite !mxE.
    by rewrite (zr r).
  by rewrite nth_drop.
have spN : (sp m N :=: kermx (mx m n A))%MS.
  apply/eqmxP; apply/andP; split.
    apply/sp_subP => u /mapP [r rr ->]; apply/sub_kermxP.
    have := @form (rv (n + m) r); rewrite mem_sp ?mem_cat ?rr ?orbT // => /(_ isT).
    by rewrite split_rest // row_mxKl row_mxKr => <-.
  apply/rV_subP => w /sub_kermxP wA0.
  have inw : (row_mx 0 w <= sp (n + m) (top ++ rest))%MS.
    rewrite spe spAI; apply/submxP; exists w; by rewrite mul_mx_row wA0 mulmx1.
  move: inw; rewrite sp_cat => /submxP [c]; rewrite -[c]hsubmxK mul_row_col.
  set ct := lsubmx c; set cr := rsubmx c => e.
  have ct0 : ct = 0.
    apply/rowP => t; rewrite mxE.
    have lt_t : (t < size top)%N by [].
    have lt_p : (nth 0%N ps t < n)%N by move/allP: lts; apply; apply: mem_nth; rewrite sps.
    have lt_p' : (nth 0%N ps t < n + m)%N by rewrite ltn_addr.
    have := congr1 (fun M : 'rV[F]_(n + m) => M 0 (lshift m (Ordinal lt_p))) e.
    rewrite row_mxEl mxE => /esym; rewrite !mxE.
    rewrite (bigD1 t) //= [sp _ _ _ _]mxE /= piv // eqxx mulr1.
    rewrite big1 ?addr0; last first.
      move=> k nk; rewrite [sp _ _ _ _]mxE /= piv //.
      by rewrite (inj_eq val_inj) (negbTE nk) mulr0.
    rewrite [X in _ + X]big1 ?addr0; last first.
      by move=> k _; rewrite [sp _ _ _ _]mxE /= /ent (zr (nth [::] rest k)) ?mulr0 // mem_nth.
    by rewrite mxE.
  rewrite ct0 mul0mx add0r in e.
  have -> : w = rsubmx (cr *m sp (n + m) rest) by rewrite -e row_mxKr.
  have -> : rsubmx (cr *m sp (n + m) rest) = \sum_k cr 0 k *: rv m (drop n (nth [::] rest k)).
    apply/rowP => j; rewrite !mxE summxE; apply: eq_bigr => k _.
    by rewrite !mxE /ent /= nth_drop.
  apply: summx_sub => k _; apply: scalemx_sub; apply: mem_sp; apply: map_f; exact: mem_nth.
(* the remaining rows are independent *)
have rkN : \rank (sp m N) = size N.
  have rk_all : \rank (sp (n + m) (top ++ rest)) = (size top + size rest)%N.
    rewrite spe spAI sz sAI; apply/eqP; rewrite -/(row_free _); apply/row_freeP.
    by exists (col_mx 0 1%:M); rewrite mul_row_col mulmx0 add0r mulmx1.
  have eR : sp (n + m) rest = row_mx 0 (\matrix_(k, j) ent N k j).
    apply/row_matrixP => k; rewrite row_of_mx split_rest ?mem_nth //.
    by apply/rowP => j; rewrite !mxE; case: split => j'; rewrite !mxE // /ent /N (nth_map [::]).
  have rk_rest : \rank (sp m N) = \rank (sp (n + m) rest).
    rewrite eR rank_row_0mx /sp /mx; have e : size N = size rest by rewrite size_map.
    by case: _ / e.
  apply/eqP; rewrite eqn_leq rank_leq_row /= rk_rest size_map.
  rewrite -(leq_add2l (size top)) -rk_all sp_cat -addsmxE.
  apply: leq_trans (mxrank_adds_leqif _ _) _; by rewrite leq_add2r rank_leq_row.
have rr : row_reduce m N = canon m N.
  by rewrite row_reduce_canon // size_canon // rkN subnn cats0.
rewrite rr; split; [exact: wf_canon | exact: canon_rref | apply: eqmx_trans (sp_canon wN) spN].
Qed.

Lemma null_space_spec n (A : mat) : wf n A ->
  is_rref n (null_space n A) /\ (sp n (null_space n A) :=: kermx (sp n A)^T)%MS.
Proof.
move=> wA; have [_ h1 h2] := left_null_spec (size_trl n A) (wf_trl n A).
by split=> //; rewrite -(mx_trl n (erefl (size A))).
Qed.

Lemma wf_null_space n A : wf n A -> wf n (null_space n A).
Proof. by move=> wA; have [[]] := null_space_spec wA. Qed.

Lemma size_null_space n A : wf n A -> size (null_space n A) = (n - \rank (sp n A))%N.
Proof.
by move=> wA; have [r e] := null_space_spec wA; rewrite -(rref_rank r) e mxrank_ker mxrank_tr.
Qed.

Lemma null_spaceP n A (v : 'rV[F]_n) : wf n A -> reflect (v *m (sp n A)^T = 0) (v <= sp n (null_space n A))%MS.
Proof. by move=> wA; have [_ ->] := null_space_spec wA; apply: sub_kermxP. Qed.

End RowReduce.
