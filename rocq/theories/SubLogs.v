(* Logical operators of subsystem codes (common.py:911-979): what holds of every result.  Proofs. *)
From mathcomp Require Import all_ssreflect all_algebra zify.
From Verif Require Import LinAlg RowReduce Classical ClassicalProofs ClassicalProofs2 Symplectic Quantum QuantumProofs.
From Verif Require Import QuantumPerm QuantumStab QuantumLogs CssLogs GroupRing.
Set Implicit Arguments.
Unset Strict Implicit.
Unset Printing Implicit Defensive.
Import GRing.Theory.
Local Open Scope ring_scope.

Section SubLogs.
Variable F : fieldType.
Notation vec := (seq F).
Notation mat := (seq (seq F)).

(* where the rows of an array after an assignment come from *)
Lemma nth_assign_in rows (B A : mat) i : (i < size A)%N -> i \in rows -> nth [::] (assign rows B A) i = nth [::] B (index i rows).
Proof. by move=> li h; rewrite nth_mkseq // h. Qed.
Lemma nth_assign_out rows (B A : mat) i : (i < size A)%N -> i \notin rows -> nth [::] (assign rows B A) i = nth [::] A i.
Proof. by move=> li h; rewrite nth_mkseq // (negbTE h). Qed.

(* the columns of the standard form of a subsystem code *)
Definition cols_ok (n : nat) (f : sform F) : Prop :=
  [/\ perm_eq (sf_locs f) (iota 0 n),
      forall q, q \in sf_csx f -> q \notin sf_cgx f ++ sf_clx f /\ q \notin sf_csz f
    & forall q, q \in sf_csz f -> q \notin sf_cgx f ++ sf_clx f].

Lemma sub_form_cols n (H s : mat) g f : wf (n + n) s -> commuting n s ->
  sub_form n H s (n - \rank (sp (n + n) s)) g = Some f -> cols_ok n f.
Proof.
move=> ws cs; have [sx [sz [f0 [e0 [en ef pl _ _]]]]] := stab_form_ok ws cs.
rewrite /sub_form e0 ef /=; case: ifP => // /andP [a1 _] [<-]; rewrite /cols_ok /=.
move: a1; rewrite !size_iota; set k := (n - _)%N in en *; set P := map _ (drop _ _) => a1.
have hc q : q \in [seq nth 0%N (iota 0 k) p | p <- P] ++ [seq q <- iota 0 k | q \notin [seq nth 0%N (iota 0 k) p | p <- P]] -> (q < k)%N.
  rewrite mem_cat mem_filter mem_iota => /orP [/mapP [p /(allP a1) hp ->] | /andP [_]]; last by clear; lia.
  by rewrite nth_iota.
split=> // q; rewrite mem_iota => hq.
  split; last by rewrite mem_iota; move: hq; clear; lia.
  by apply/negP => /hc; move: hq; clear; lia.
by apply/negP => /hc; move: hq; clear; lia.
Qed.

Lemma ent_assign_in rows (B A : mat) q i : (q < size A)%N -> q \in rows -> ent (assign rows B A) q i = ent B (index q rows) i.
Proof. by move=> h h'; rewrite /ent nth_assign_in. Qed.
Lemma ent_assign_out rows (B A : mat) q i : (q < size A)%N -> q \notin rows -> ent (assign rows B A) q i = ent A q i.
Proof. by move=> h h'; rewrite /ent nth_assign_out. Qed.

(* the shape of the result and its duality *)
Lemma sub_logicals n k f L : cols_ok n f -> logicals_of_form n k true f = Some L ->
  [/\ size L = (k + k)%N, wf (n + n) L,
      forall i j, (i < k)%N -> (j < k)%N -> symp n (nth [::] L i) (nth [::] L (k + j)) = (i == j)%:R,
      forall i j, (i < k)%N -> (j < n)%N -> ent L (k + i) j = 0
    & forall i j, (i < k)%N -> (j < k)%N -> symp n (nth [::] L (k + i)) (nth [::] L (k + j)) = 0].
Proof.
move=> [pl hsx hsz]; rewrite /logicals_of_form /=.
set gl := [seq q <- iota 0 n | _].
set U := null_space _ _; set W := null_space _ (selcols _ (selrows (sf_rgx f) _)).
case: ifP => // /andP [/eqP sU /eqP sW]; case ei: (inv_mat _ _) => [inv|] //.
set xx0 := assign gl (trl _ U) _; set zz0 := assign gl (mull _ _ inv) _.
set xx := assign (sf_csz f) _ xx0; set zz := assign (sf_csx f) _ zz0.
case: ifP => // _; set xz := assign (sf_csx f) _ _.
have sz0 : size (zerol F n k) = n by rewrite size_zerol.
have [sxx0 szz0] : size xx0 = n /\ size zz0 = n by rewrite !size_mkseq sz0.
have [sxx szz] : size xx = n /\ size zz = n by rewrite !size_mkseq sz0.
have sxz : size xz = n by rewrite !size_mkseq sz0.
set lx := trl k (xx ++ xz); set lz := trl k (_ ++ zz).
have [slx slz] : size lx = k /\ size lz = k by rewrite !size_trl.
have wlx : wf (n + n) lx by have := wf_trl k (xx ++ xz); rewrite size_cat sxx sxz.
have wlz : wf (n + n) lz by have := wf_trl k (zerol F n k ++ zz); rewrite size_cat sz0 szz.
have pa := argsort_perm pl; have spa : size (argsort (sf_locs f)) = n by rewrite (perm_size pa) size_iota.
move=> [<-].
have lxx i q : (i < k)%N -> (q < n)%N -> nth 0 (nth [::] lx i) q = ent xx q i.
  by move=> li lq; rewrite -[LHS]/(ent lx i q) ent_trl ?size_cat ?sxx ?sxz 1?ltn_addr // /ent nth_cat sxx lq.
have lz0 i q : (i < k)%N -> (q < n)%N -> nth 0 (nth [::] lz i) q = 0.
  by move=> li lq; rewrite -[LHS]/(ent lz i q) ent_trl ?size_cat ?sz0 ?szz 1?ltn_addr // /ent nth_cat sz0 lq -/(ent _ _ _) ent_zerol.
have lzz i q : (i < k)%N -> (q < n)%N -> nth 0 (nth [::] lz i) (n + q) = ent zz q i.
  move=> li lq; rewrite -[LHS]/(ent lz i (n + q)) ent_trl ?size_cat ?sz0 ?szz ?ltn_add2l // /ent nth_cat sz0.
  by rewrite ltnNge leq_addr /= addKn.
have nx i : (i < k)%N -> nth [::] (permq n (argsort (sf_locs f)) lx ++ permq n (argsort (sf_locs f)) lz) i = permr n (argsort (sf_locs f)) (nth [::] lx i).
  by move=> li; rewrite nth_cat size_permq slx li (nth_map [::]) // slx.
have nz i : (i < k)%N -> nth [::] (permq n (argsort (sf_locs f)) lx ++ permq n (argsort (sf_locs f)) lz) (k + i) = permr n (argsort (sf_locs f)) (nth [::] lz i).
  by move=> li; rewrite nth_cat size_permq slx ltnNge leq_addr /= addKn (nth_map [::]) // slz.
have [rx rz] : (forall i, (i < k)%N -> size (nth [::] lx i) = (n + n)%N) /\ (forall i, (i < k)%N -> size (nth [::] lz i) = (n + n)%N).
  by split=> i li; apply: wf_nth; rewrite ?slx ?slz.
have pz q : (q < n)%N -> (nth 0%N (argsort (sf_locs f)) q < n)%N.
  by move=> lq; have := mem_nth 0%N (_ : q < size (argsort (sf_locs f)))%N; rewrite spa (perm_mem pa) mem_iota => /(_ lq).
split.
- by rewrite size_cat !size_permq slx slz.
- by rewrite wf_cat !wf_permq.
- move=> i j li lj; rewrite nx // nz // symp_permr ?rx ?rz // /symp.
  have ugl : uniq gl by rewrite filter_uniq ?iota_uniq.
  have mgl q : q \in gl = ((q \in sf_cgx f ++ sf_clx f) && (q < n)%N) by rewrite mem_filter mem_iota add0n.
  have [uA _ mI] := inv_mat_some (etrans (size_mull _ _ _) sU) (wf_mull _ _ _) ei.
  have sI : size inv = k by have [_ ->] := inv_mat_some (etrans (size_mull _ _ _) sU) (wf_mull _ _ _) ei.
  have wU : wf (size gl) U by apply: wf_null_space; apply/wfP => r /mapP [r' _ ->]; rewrite size_map.
  have wW : wf (size gl) W by apply: wf_null_space; apply/wfP => r /mapP [r' _ ->]; rewrite size_map.
  have mA : mx k k (mull k U (trl (size gl) W)) = mx k (size gl) U *m (mx k (size gl) W)^T.
    by rewrite (@mx_mull _ k (size gl) k) ?size_trl // mx_trl.
  have mB : mx (size gl) k (mull k (trl (size gl) W) inv) = (mx k (size gl) W)^T *m mx k k inv.
    by rewrite (@mx_mull _ (size gl) k k) ?size_trl ?mx_trl // -{1}sW wf_trl.
  have one : mx k (size gl) U *m mx (size gl) k (mull k (trl (size gl) W) inv) = 1%:M.
    by rewrite mB mulmxA -mA mI mulmxV.
  have := congr1 (fun M : 'M[F]_k => M (Ordinal li) (Ordinal lj)) one; rewrite !mxE -val_eqE /= => <-.
  transitivity (\sum_(q <- iota 0 n) (ent xx q i * ent zz q j)).
    have -> : iota 0 n = index_iota 0 n by rewrite /index_iota subn0.
    rewrite big_mkord; apply: eq_bigr => q _.
    by rewrite (lz0 j q) // mulr0 subr0 lxx // lzz.
  rewrite (bigID (mem gl)) /= [X in _ + X]big1_seq ?addr0; last first.
    move=> q /andP [ng]; rewrite mem_iota add0n => /andP [_ lq].
    case: (boolP (q \in sf_csz f)) => hz.
      rewrite [ent zz q j]ent_assign_out ?szz0 //; last by apply/negP => /hsx [_]; rewrite hz.
      by rewrite [ent zz0 q j]ent_assign_out ?sz0 // ent_zerol mulr0.
    by rewrite [ent xx q i]ent_assign_out ?sxx0 // [ent xx0 q i]ent_assign_out ?sz0 // ent_zerol mul0r.
  rewrite -big_filter; have -> : [seq q <- iota 0 n | q \in gl] = gl.
    by rewrite /gl; apply: eq_in_filter => q hq; rewrite mem_filter hq andbT.
  rewrite (big_nth 0%N) big_mkord; apply: eq_bigr => p _; rewrite !mxE.
  have hp : nth 0%N gl p \in gl by apply: mem_nth.
  have lp : (nth 0%N gl p < n)%N by move: hp; rewrite mgl => /andP [].
  have gp : nth 0%N gl p \in sf_cgx f ++ sf_clx f by move: hp; rewrite mgl => /andP [].
  congr (_ * _).
    rewrite ent_assign_out ?sxx0 //; last by apply/negP => /hsz; rewrite gp.
    by rewrite ent_assign_in ?sz0 // index_uniq // ent_trl ?sU.
  rewrite ent_assign_out ?szz0 //; last by apply/negP => /hsx [] /negP.
  by rewrite ent_assign_in ?sz0 // index_uniq.
- by move=> i j li lj; rewrite /ent nz // nth_permr_x ?rz // lz0 // pz.
- move=> i j li lj; rewrite !nz // symp_permr ?rz // /symp big1 // => q _.
  by rewrite (lz0 i q) // (lz0 j q) // mul0r mulr0 subr0.
Qed.
Lemma sub_logical_ops (c : qcode F) L : q_ok c -> q_sub c -> q_logs c = None -> get_logical_ops c = Some L ->
  let n := q_n c in let k := q_dimension c in
  [/\ size L = (k + k)%N, wf (n + n) L,
      forall i j, (i < k)%N -> (j < k)%N -> symp n (nth [::] L i) (nth [::] L (k + j)) = (i == j)%:R,
      forall i j, (i < k)%N -> (j < n)%N -> ent L (k + i) j = 0
    & forall i j, (i < k)%N -> (j < k)%N -> symp n (nth [::] L (k + i)) (nth [::] L (k + j)) = 0].
Proof.
move=> ok sb nl; rewrite /get_logical_ops nl /standard_form sb /=.
have [ws es _ _ _] := stab_ops_ok false false ok; have [wA _ _ _ _] := ok.
set s := (get_stabilizer_ops c false false).1 in ws es *.
have -> : q_dimension (mkq (q_n c) s (Some false)) = (q_n c - \rank (sp (q_n c + q_n c) s))%N.
  by rewrite /q_dimension /= /q_rank /= size_canon.
case e: (sub_form _ _ _ _ _) => [f|] // h; apply: sub_logicals h.
apply: sub_form_cols e => //; apply/(commP ws ws).
have le1 : (sp (q_n c + q_n c) s <= sp (q_n c + q_n c) (q_mat c))%MS by rewrite es capmxSl.
have /scompP e2 : (sp (q_n c + q_n c) s <= scomp (sp (q_n c + q_n c) (q_mat c)))%MS by rewrite es capmxSr.
by have [D eD] := submxP le1; rewrite {1}eD -!mulmxA [X in D *m X]mulmxA e2 mulmx0.
Qed.
End SubLogs.
