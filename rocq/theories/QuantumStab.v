(* The standard form of the parity checks of a stabilizer code, and its logical operators. *)
From mathcomp Require Import all_ssreflect all_algebra zify.
From Verif Require Import LinAlg RowReduce Classical ClassicalProofs ClassicalProofs2 Symplectic Quantum QuantumProofs
  QuantumPerm.
Set Implicit Arguments.
Unset Strict Implicit.
Unset Printing Implicit Defensive.
Import GRing.Theory.
Local Open Scope ring_scope.

Section Form.
Variable F : fieldType.
Notation vec := (seq F).
Notation mat := (seq (seq F)).

Lemma ent_permq_x n p (A : mat) i j : perm_eq p (iota 0 n) -> wf (n + n) A -> (i < size A)%N -> (j < n)%N ->
  ent (permq n p A) i j = ent A i (nth 0%N p j).
Proof. by move=> pe wA li lj; rewrite /ent (nth_map [::]) // -/(permr _ _ _) nth_permr_x //; apply: wf_nth. Qed.

Lemma ent_permq_z n p (A : mat) i j : perm_eq p (iota 0 n) -> wf (n + n) A -> (i < size A)%N -> (j < n)%N ->
  ent (permq n p A) i (n + j) = ent A i (n + nth 0%N p j).
Proof. by move=> pe wA li lj; rewrite /ent (nth_map [::]) // -/(permr _ _ _) nth_permr_z //; apply: wf_nth. Qed.

Lemma permmx_argsort n p : perm_eq p (iota 0 n) -> permmx F n (argsort p) *m permmx F n p = 1%:M.
Proof.
move=> pe; have pa := argsort_perm pe; have sa : size (argsort p) = n by rewrite (perm_size pa) size_iota.
apply/row_matrixP => i; rewrite row_mul -[row i _]mul1mx.
set v := lrv (row i (1%:M : 'M[F]_(n + n))).
have sv : size v = (n + n)%N by rewrite size_lrv.
rewrite mul1mx rowE -mulmxA mulmxA -row1 -{1}[row i _]rv_lrv -rv_permr // -rv_permr ?size_permr //.
by rewrite permr_argsort // rv_lrv.
Qed.

Lemma permmx_unit n p : perm_eq p (iota 0 n) -> permmx F n p \in unitmx.
Proof. by move=> pe; have [] := mulmx1_unit (permmx_argsort pe). Qed.

Lemma rank_permq n p (A : mat) : perm_eq p (iota 0 n) -> wf (n + n) A ->
  \rank (sp (n + n) (permq n p A)) = \rank (sp (n + n) A).
Proof. by move=> pe wA; rewrite sp_permq // mxrankMfree // row_free_unit permmx_unit. Qed.

Lemma sorted_filter n s : sorted ltn s ->
  [seq p <- s | (p < n)%N] = take (size [seq p <- s | (p < n)%N]) s /\
  (forall i, (size [seq p <- s | (p < n)%N] <= i < size s)%N -> (n <= nth 0%N s i)%N).
Proof.
elim: s => [|x s IH] //= srt; have {IH} [e h] := IH (path_sorted srt).
case: ifP => lt /=.
  by split; [rewrite -e | case=> [|i] //= hi; apply: h].
have ge y : y \in s -> (n <= y)%N.
  by move=> ys; have := order_path_min ltn_trans srt => /allP /(_ _ ys); lia.
have -> : [seq p <- s | (p < n)%N] = [::].
  by apply/eqP; rewrite -(negbK (_ == _)) -has_filter; apply/hasPn => y /ge; rewrite -leqNgt.
by split=> // -[|i] /= hi; [lia | apply: ge; apply: mem_nth].
Qed.

(* what the standard form of a stabilizer code looks like *)
Definition std_form (n k sx sz : nat) (H : mat) (f : sform F) : Prop :=
  [/\ n = (k + (sx + sz))%N,
      f = SForm (sf_mat f) (sf_locs f) (iota 0 sx) [::] (iota sx sz) [::]
                (iota k sx) [::] (iota 0 k) (iota (k + sx) sz) [::] (iota 0 k),
      perm_eq (sf_locs f) (iota 0 n),
      [/\ size (sf_mat f) = (sx + sz)%N, wf (n + n) (sf_mat f)
        & (sp (n + n) (sf_mat f) :=: sp (n + n) (permq n (sf_locs f) H))%MS]
    & [/\ forall i j, (i < sx)%N -> (j < sx)%N -> ent (sf_mat f) i (k + j) = (i == j)%:R,
          forall i j, (i < sz)%N -> (j < n)%N -> ent (sf_mat f) (sx + i) j = 0
        & forall i j, (i < sz)%N -> (j < sz)%N -> ent (sf_mat f) (sx + i) (n + (k + sx + j)) = (i == j)%:R]].

Lemma row_mx0_eq m p n (A : 'M[F]_(m, n)) (B : 'M[F]_(p, n)) : (A :=: B)%MS ->
  (row_mx (0 : 'M[F]_(m, n)) A :=: row_mx (0 : 'M[F]_(p, n)) B)%MS.
Proof.
move=> e; have h q (C : 'M[F]_(q, n)) : row_mx (0 : 'M[F]_(q, n)) C = C *m row_mx 0 1%:M.
  by rewrite mul_mx_row mulmx0 mulmx1.
by rewrite (h _ A) (h _ B); apply: eqmxMr.
Qed.

Lemma size_x_part n (A : mat) : size (x_part n A) = size A. Proof. by rewrite size_map. Qed.
Lemma size_z_part n (A : mat) : size (z_part n A) = size A. Proof. by rewrite size_map. Qed.
Lemma wf_x_part n (A : mat) : wf (n + n) A -> wf n (x_part n A).
Proof. by move/wfP => h; apply/wfP => r /mapP [q qA ->]; apply: half_take; apply: h. Qed.
Lemma wf_z_part n (A : mat) : wf (n + n) A -> wf n (z_part n A).
Proof. by move/wfP => h; apply/wfP => r /mapP [q qA ->]; apply: half_drop; apply: h. Qed.
Lemma ent_x_part n (A : mat) i j : (j < n)%N -> ent (x_part n A) i j = ent A i j.
Proof.
move=> lj; rewrite /ent; have [lt | ge] := ltnP i (size A); first by rewrite (nth_map [::]) // nth_take.
by rewrite !nth_default ?nth_nil // ?size_map.
Qed.
Lemma ent_z_part n (A : mat) i j : ent (z_part n A) i j = ent A i (n + j).
Proof.
rewrite /ent; have [lt | ge] := ltnP i (size A); first by rewrite (nth_map [::]) // nth_drop.
by rewrite [nth [::] A i]nth_default // [nth [::] (z_part _ _) i]nth_default ?size_map // !nth_nil.
Qed.
Lemma hcat_parts n (A : mat) : hcat (x_part n A) (z_part n A) = A.
Proof. by elim: A => [|r A IH] //=; rewrite /hcat /= cat_take_drop; congr (_ :: _). Qed.

Lemma mx_parts m n (A : mat) : size A = m -> wf (n + n) A ->
  mx m (n + n) A = row_mx (mx m n (x_part n A)) (mx m n (z_part n A)).
Proof.
by move=> sA wA; rewrite -{1}(hcat_parts n A) mx_hcat ?size_map // wf_x_part.
Qed.

Lemma x_part0 m n (A : mat) : (forall i j, (i < m)%N -> (j < n)%N -> ent A i j = 0) -> mx m n (x_part n A) = 0.
Proof. by move=> h; apply/matrixP => i j; rewrite !mxE ent_x_part // h. Qed.

Lemma ent_drop (A : mat) k i j : ent (drop k A) i j = ent A (k + i) j.
Proof. by rewrite /ent nth_drop. Qed.
Lemma ent_take (A : mat) k i j : (i < k)%N -> ent (take k A) i j = ent A i j.
Proof. by move=> li; rewrite /ent nth_take. Qed.

Lemma sp_split k n (A : mat) : (sp n A :=: sp n (take k A) + sp n (drop k A))%MS.
Proof. by have := sp_cat n (take k A) (drop k A); rewrite cat_take_drop => h; apply: eqmx_trans h (eqmx_sym (addsmxE _ _)). Qed.

Lemma no_tail n sx (M1 : mat) (v : vec) : wf (n + n) M1 -> commuting n M1 -> (sx <= n)%N -> (sx <= size M1)%N ->
  (forall i j, (i < sx)%N -> (j < sx)%N -> ent M1 i (n - sx + j) = (i == j)%:R) ->
  size v = n -> (forall j, (j < n - sx)%N -> nth 0 v j = 0) -> (rv (n + n) (vzero F n ++ v) <= sp (n + n) M1)%MS ->
  forall j, (j < n)%N -> nth 0 v j = 0.
Proof.
move=> wM1 cM1 sxn sM1 G1 sv z inM j lj.
have sv' : size (vzero F n ++ v) = (n + n)%N by rewrite size_cat size_vzero sv.
have c0 : forall r, r \in M1 -> symp n r (vzero F n ++ v) = 0.
  apply/(comm_row wM1 sv'); apply: submx_trans inM _.
  by apply/scompP; apply/(commP wM1 wM1).
have [lt | ge'] := ltnP j (n - sx); first exact: z.
have lt1 : (j - (n - sx) < size M1)%N by lia.
have := c0 _ (mem_nth [::] lt1); rewrite /symp.
rewrite (bigD1 (Ordinal lj)) //= big1 => [|j' ne].
  rewrite addr0 !nth_cat size_vzero lj ltnNge leq_addr /= addKn nth_nseq if_same mulr0 subr0.
  have := G1 (j - (n - sx))%N (j - (n - sx))%N; rewrite subnKC // eqxx /ent => ->; rewrite ?mul1r; try lia.
  by [].
rewrite !nth_cat size_vzero ltn_ord ltnNge leq_addr /= addKn nth_nseq if_same mulr0 subr0.
have [lt' | ge''] := ltnP j' (n - sx); first by rewrite z ?mulr0.
have := G1 (j - (n - sx))%N (j' - (n - sx))%N; rewrite subnKC // /ent => ->; try (have := ltn_ord j'; lia).
rewrite (_ : (_ == _) = false) ?mul0r //; apply/negbTE; move: ne; rewrite -val_eqE /=; have := ltn_ord j'; lia.
Qed.

Theorem stab_form_ok n (H : mat) : wf (n + n) H -> commuting n H ->
  let k := (n - \rank (sp (n + n) H))%N in
  exists sx sz f, stab_form n H k = Some f /\ std_form n k sx sz H f.
Proof.
move=> wH cH k; rewrite /stab_form.
have rM := canon_rref wH; have eM := sp_canon wH; have wM := wf_canon wH; have sM := size_canon wH.
set M := canon (n + n) H in rM eM wM sM *.
have cM : commuting n M by apply: (comm_eqmx wH wH wM wM) cH; rewrite eM.
have rle : (size M <= n)%N.
  by have := rank_center_le (sp (n + n) M); rewrite (comm_center wM cM) rref_rank //; lia.
have srt := rref_sorted rM.
set fz := first_nonzero_cols M in srt *.
have sfz : size fz = size M by rewrite size_map.
have [epx hpx] := sorted_filter n srt.
set piv := [seq p <- fz | (p < n)%N] in epx hpx *.
set sx := size piv in epx hpx *.
have lsx : (sx <= size M)%N by rewrite -sfz /sx /piv size_filter count_size.
have npx i : (i < sx)%N -> nth 0%N piv i = first_nz (nth [::] M i).
  by move=> li; rewrite epx nth_take // (nth_map [::]) //; lia.
have upx : uniq piv by rewrite filter_uniq // (sorted_uniq ltn_trans ltnn).
have apx : all (fun q => q < n)%N piv by apply/allP => q; rewrite mem_filter => /andP [].
set p1 := _ ++ piv.
have pp1 : perm_eq p1 (iota 0 n) by exact: perm_to_back.
have sp1 : size p1 = n by rewrite (perm_size pp1) size_iota.
have so1 := size_back upx apx.
have np1 i : (i < sx)%N -> nth 0%N p1 (n - sx + i) = nth 0%N piv i.
  by move=> li; rewrite nth_cat so1 ltnNge leq_addr /= addKn.
have sxn : (sx <= n)%N by lia.
have wM1 : wf (n + n) (permq n p1 M) by exact: wf_permq.
have cM1 : commuting n (permq n p1 M) by exact: commuting_permq.
have G1 i j : (i < size M)%N -> (j < sx)%N -> ent (permq n p1 M) i (n - sx + j) = (i == j)%:R.
  move=> li lj; rewrite ent_permq_x //; last by lia.
  by rewrite np1 // npx //; case: rM => _ _ _ -> //; lia.
have G2 i j : (sx <= i < size M)%N -> (j < n)%N -> ent (permq n p1 M) i j = 0.
  move=> li lj; rewrite ent_permq_x //; last by lia.
  apply: (rref_lead_row rM); first by lia.
  have := hpx i; rewrite sfz li => /(_ isT); rewrite (nth_map [::]); last by lia.
  have := perm_iota_lt pp1 lj; lia.
have sM1 := size_permq n p1 M.
have rM1 : \rank (sp (n + n) (permq n p1 M)) = size M by rewrite rank_permq // rref_rank.
set M1 := permq n p1 M in wM1 cM1 G1 G2 sM1 rM1 *.
set sub0 := z_part n (drop sx M1).
have wD : wf (n + n) (drop sx M1) by exact: wf_drop.
have wsub0 : wf n sub0 by exact: wf_z_part.
have ss0 : size sub0 = (size M - sx)%N by rewrite size_z_part size_drop sM1.
have mD : mx (size sub0) (n + n) (drop sx M1) = row_mx 0 (sp n sub0).
  rewrite mx_parts ?size_z_part // x_part0 // => i j li lj; rewrite ent_drop G2 // -sM1.
  by move: li; rewrite ss0 sM1; lia.
have rs0 : \rank (sp n sub0) = size sub0.
  apply/eqP; rewrite eqn_leq rank_leq_row /=.
  have le : (\rank (sp (n + n) M1) <= \rank (sp (n + n) (take sx M1)) + \rank (sp (n + n) (drop sx M1)))%N.
    by rewrite (sp_split sx) mxrank_adds_leqif.
  move: le; rewrite rM1.
  have := rank_leq_row (sp (n + n) (take sx M1)); rewrite [X in (_ <= X)%N -> _]size_takel ?sM1 //.
  have -> : \rank (sp (n + n) (drop sx M1)) = \rank (sp n sub0).
    by rewrite (sp_mx _ (esym (size_z_part n _))) mD rank_row_0mx.
  by move: ss0; lia.
have rsub := canon_rref wsub0; have esub := sp_canon wsub0; have wsub := wf_canon wsub0.
have ssub : size (canon n sub0) = size sub0 by rewrite size_canon.
rewrite ssub eqxx /=.
set sub := canon n sub0 in rsub esub wsub ssub *.
have kE : k = (n - size M)%N by rewrite /k -sM.
have -> : take (n - sx - k) (first_nonzero_cols sub) = first_nonzero_cols sub.
  by rewrite take_oversize // size_map ssub ss0 kE; lia.
have srtz := rref_sorted rsub.
have spz : size (first_nonzero_cols sub) = (size M - sx)%N by rewrite size_map ssub.
have npz i : (i < size M - sx)%N -> nth 0%N (first_nonzero_cols sub) i = first_nz (nth [::] sub i).
  by move=> li; rewrite (nth_map [::]) // ssub ss0.
have ltpz i : (i < size M - sx)%N -> (first_nz (nth [::] sub i) < n - sx)%N.
  move=> li; rewrite ltnNge; apply/negP => ge.
  have ri : nth [::] sub i \in sub by apply: mem_nth; rewrite ssub ss0.
  set v := nth [::] sub i in ge ri.
  have sv : size v = n by move/wfP: wsub; apply.
  have z j : (j < n - sx)%N -> nth 0 v j = 0.
    by move=> lj; apply: (rref_lead_row rsub); rewrite ?ssub ?ss0 //; apply: leq_trans ge.
  have [_ nzr _ _] := rsub; have [j lj nz] := nzr _ ri.
  (* v is a combination of Z parts of rows of M1 whose X parts vanish *)
  have inM : (rv (n + n) (vzero F n ++ v) <= sp (n + n) M1)%MS.
    have : (rv n v <= sp n sub0)%MS by rewrite -esub mem_sp.
    case/submxP => D eD; rewrite rv_cat ?size_vzero // rv_zero eD.
    have -> : row_mx (0 : 'rV[F]_n) (D *m sp n sub0) = D *m row_mx (0 : 'M[F]_(_, n)) (sp n sub0) by rewrite mul_mx_row mulmx0.
    rewrite -mD; apply: submx_trans (submxMl _ _) _.
    rewrite -(sp_mx _ (esym (size_z_part n _))).
    by rewrite (sp_split sx _ M1) addsmxSr.
  by apply: nz; apply: (no_tail wM1 cM1 sxn _ _ sv z inM lj) => [|i' j' li' lj']; rewrite ?sM1 // G1 //; exact: leq_trans li' _.
have upz : uniq (first_nonzero_cols sub) by rewrite (sorted_uniq ltn_trans ltnn).
have apz : all (fun q => q < n - sx)%N (first_nonzero_cols sub).
  by apply/(all_nthP 0%N) => i; rewrite spz => li; rewrite npz // ltpz.
have apz' : all (fun q => q < n)%N (first_nonzero_cols sub).
  by apply: sub_all apz => q; move/leq_trans; apply; apply: leq_subr.
clearbody k sx.
set pz := first_nonzero_cols sub in upz apz apz' npz spz srtz *.
set p2 := _ ++ pz.
have pp2 : perm_eq p2 (iota 0 n) by exact: perm_to_back.
have so2 := size_back upz apz'.
have e2 : [seq q <- iota 0 n | q \notin pz] = [seq q <- iota 0 (n - sx) | q \notin pz] ++ iota (n - sx) sx.
  rewrite -{1}(subnK sxn) iotaD filter_cat add0n; congr (_ ++ _); apply/all_filterP/allP => q.
  rewrite mem_iota => hq; apply/negP => /(allP apz); move: hq; clear -sxn; lia.
have so3 : size [seq q <- iota 0 (n - sx) | q \notin pz] = k by rewrite (size_back upz apz) spz kE; clear -sxn lsx rle kE; lia.
have np2 j : (j < sx)%N -> nth 0%N p2 (k + j) = (n - sx + j)%N.
  move=> lj; rewrite nth_cat so2 spz (_ : (_ < _)%N); last by rewrite kE; move: lj; clear -sxn lsx rle kE; lia.
  by rewrite e2 nth_cat so3 ltnNge leq_addr /= addKn nth_iota.
have np3 j : nth 0%N p2 (k + sx + j) = nth 0%N pz j.
  rewrite nth_cat so2 spz (_ : (_ < _)%N = false); last by rewrite kE; clear -sxn lsx rle kE; lia.
  by congr (nth _ _ _); rewrite kE; clear -sxn lsx rle kE; lia.
set M2 := _ ++ hcat _ _.
have sxp : size (x_part n (drop sx M1)) = size sub by rewrite ssub size_x_part size_z_part.
have sM2 : size M2 = size M by rewrite size_cat size_takel ?sM1 // size_hcat // sxp ssub ss0; clear -sxn lsx rle kE; lia.
have wM2 : wf (n + n) M2.
  by rewrite wf_cat wf_take //= wf_hcat // wf_x_part.
have st1 : size (take sx M1) = sx by rewrite size_takel // sM1.
have M2t i j : (i < sx)%N -> ent M2 i j = ent M1 i j by move=> li; rewrite ent_cat st1 li ent_take.
have M2x i j : (i < size M - sx)%N -> (j < n)%N -> ent M2 (sx + i) j = 0.
  move=> li lj; rewrite ent_cat st1 ltnNge leq_addr /= addKn (@ent_hcat _ n) ?wf_x_part ?sxp ?ssub ?ss0 //.
  by rewrite lj ent_x_part // ent_drop G2 //; move: li; clear -sxn lsx rle kE; lia.
have M2z i j : (i < size M - sx)%N -> (j < n)%N -> ent M2 (sx + i) (n + j) = ent sub i j.
  move=> li lj; rewrite ent_cat st1 ltnNge leq_addr /= addKn (@ent_hcat _ n) ?wf_x_part ?sxp ?ssub ?ss0 //.
  by rewrite ltnNge leq_addr /= addKn.
have eM2 : (sp (n + n) M2 :=: sp (n + n) M1)%MS.
  apply: eqmx_trans (sp_cat _ _ _) _; apply: eqmx_sym; apply: eqmx_trans (sp_split sx _ _) _.
  have h : (sp (n + n) (drop sx M1) :=: sp (n + n) (hcat (x_part n (drop sx M1)) sub))%MS.
    apply: eqmx_trans (sp_mx _ (esym (size_z_part n _))) _; rewrite mD.
    apply: eqmx_trans (row_mx0_eq (eqmx_sym esub)) _; apply: eqmx_sym.
    apply: eqmx_trans (sp_mx _ (etrans (size_hcat sxp) sxp)) _.
    rewrite mx_hcat ?wf_x_part // x_part0 // => i j li lj; rewrite ent_drop G2 //.
    by move: li; rewrite ssub ss0; clear -sxn lsx rle kE; lia.
  by apply/eqmxP; rewrite -!addsmxE !addsmx_sub !addsmxSl /= -h addsmxSr h addsmxSr.
exists sx, (size M - sx)%N; eexists; split; first by [].
have locE : [seq nth 0%N (iota 0 n) q | q <- p1] = p1.
  apply: map_id_in => q; rewrite (perm_mem pp1) mem_iota add0n => /= lq; exact: nth_iota.
have eK : (n - sx - size pz)%N = k by rewrite spz kE; clear -sxn lsx rle kE; lia.
rewrite locE; split=> /=.
- by rewrite kE; clear -sxn lsx rle kE; lia.
- by rewrite eK spz.
- exact: perm_comp.
- split; rewrite ?size_permq ?sM2; [clear -sxn lsx rle kE; lia | by apply: wf_permq; rewrite (perm_size pp2) size_iota |].
  have -> : permq n [seq nth 0%N p1 i | i <- p2] H = permq n p2 (permq n p1 H).
    by rewrite !permqE -map_comp; apply/eq_in_map => r rH /=; rewrite permr_comp //; move/wfP: wH; apply.
  apply: (sp_permq_eq pp2) => //; first exact: wf_permq.
  by apply: eqmx_trans eM2 _; apply: sp_permq_eq.
have pn j : (j < n)%N -> (nth 0%N p2 j < n)%N by exact: perm_iota_lt.
split=> i j li lj.
- rewrite ent_permq_x ?sM2 //; try (move: li lj; rewrite ?kE; clear -sxn lsx rle kE; lia).
  by rewrite np2 // M2t // G1 //; move: li; clear -sxn lsx rle kE; lia.
- by rewrite ent_permq_x ?sM2 //; [rewrite M2x // pn | move: li; clear -sxn lsx rle kE; lia].
rewrite ent_permq_z ?sM2 //; try (move: li lj; rewrite ?kE; clear -sxn lsx rle kE; lia).
rewrite np3 M2z //; last by rewrite npz //; have := ltpz _ lj; clear -sxn lsx rle kE; lia.
by rewrite npz //; case: rsub => _ _ _ -> //; rewrite ssub ss0.
Qed.
End Form.
