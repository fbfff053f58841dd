(* Encoding tableaus: proofs. *)
From mathcomp Require Import all_ssreflect all_algebra zify.
From Verif Require Import LinAlg RowReduce Classical ClassicalProofs ClassicalProofs2 Symplectic Quantum QuantumProofs QuantumLogs.
From Verif Require Import Css CssProofs CssGauge Tableau.
Set Implicit Arguments.
Unset Strict Implicit.
Unset Printing Implicit Defensive.
Import GRing.Theory.
Local Open Scope ring_scope.

Section Proofs.
Variable F : fieldType.
Notation vec := (seq F).
Notation mat := (seq (seq F)).
Hypothesis two : 1 + 1 = 0 :> F.

Lemma wfm n (A : mat) : wf n A -> forall r, r \in A -> size r = n.
Proof. by move/wfP. Qed.
Lemma opp2 (x : F) : - x = x.
Proof. by apply/eqP; rewrite eq_sym -addr_eq0 -[x]mul1r -mulrDl two mul0r. Qed.
Lemma symp_sym n (u v : vec) : symp n u v = symp n v u.
Proof. by rewrite symp_anti opp2. Qed.
Lemma dot_conj n (u v : vec) : size u = (n + n)%N -> size v = (n + n)%N -> dot (conj_row n u) v = symp n u v.
Proof.
move=> su sv; have := symp_rv su sv; rewrite -rv_conj_row // dot_rv ?size_conj_row // => /matrixP /(_ 0 0).
by rewrite !mxE eqxx !mulr1n.
Qed.
Lemma symp_vsub n (u v w : vec) : size u = size v -> symp n (vsub u v) w = symp n u w - symp n v w.
Proof.
move=> e; rewrite /symp -sumrB; apply: eq_bigr => j _; rewrite !nth_vsub // !mulrBl !opprD !opprK !addrA.
by congr (_ + _); rewrite -!addrA; congr (_ + _); rewrite addrC.
Qed.
Lemma symp_comb n (x w : vec) (A : mat) : size x = size A ->
  symp n (vmulm (n + n) x A) w = \sum_(i < size A) nth 0 x i * symp n (nth [::] A i) w.
Proof.
move=> sx; have [_ _ e] := vmulm_comb (n + n) sx; rewrite /symp.
rewrite (eq_bigr (fun j : 'I_n => \sum_(i < size A) nth 0 x i *
   (nth 0 (nth [::] A i) j * nth 0 w (n + j) - nth 0 (nth [::] A i) (n + j) * nth 0 w j))); last first.
  move=> j _; rewrite !e; [|have := ltn_ord j; lia|have := ltn_ord j; lia].
  by rewrite !mulr_suml -sumrB; apply: eq_bigr => i _; rewrite mulrBr !mulrA.
by rewrite exchange_big /=; apply: eq_bigr => i _; rewrite mulr_sumr.
Qed.

(* all pairs of rows commute; the rows are dual *)
Definition ortho n (A B : mat) : Prop := forall a b, a \in A -> b \in B -> symp n a b = 0.
Definition dualto n (A B : mat) : Prop := size A = size B /\
  forall i j, (i < size A)%N -> (j < size A)%N -> symp n (nth [::] A i) (nth [::] B j) = (i == j)%:R.

Lemma ortho_sym n A B : ortho n A B -> ortho n B A.
Proof. by move=> h a b ha hb; rewrite symp_sym; apply: h. Qed.
Lemma ortho_catl n A A' B : ortho n A B -> ortho n A' B -> ortho n (A ++ A') B.
Proof. by move=> h h' a b; rewrite mem_cat => /orP [/h|/h'] {}h hb; apply: h. Qed.
Lemma ortho_catr n A B B' : ortho n A B -> ortho n A B' -> ortho n A (B ++ B').
Proof. by move=> h h' a b ha; rewrite mem_cat => /orP [hb|hb]; [apply: h | apply: h']. Qed.
Lemma dualto_cat n A A' B B' : dualto n A B -> dualto n A' B' -> ortho n A B' -> ortho n A' B -> dualto n (A ++ A') (B ++ B').
Proof.
move=> [s h] [s' h'] o o'; split=> [|i j]; rewrite !size_cat ?s ?s' // => li lj; rewrite !nth_cat s.
case: (ltnP i (size B)) => hi; case: (ltnP j (size B)) => hj.
- by rewrite h // s.
- rewrite o; [|by rewrite mem_nth // s|by rewrite mem_nth // ltn_subLR].
  by rewrite eqF //; move: hi hj; clear; lia.
- rewrite o'; [|by rewrite mem_nth // s' ltn_subLR|by rewrite mem_nth].
  by rewrite eqF //; move: hi hj; clear; lia.
rewrite h' ?s' ?ltn_subLR //; congr (_%:R); move: hi hj; clear; lia.
Qed.

Lemma pairs_rel n k (L : mat) : dual_pairs n k L ->
  [/\ ortho n (take k L) (take k L), ortho n (drop k L) (drop k L), dualto n (take k L) (drop k L),
      size (take k L) = k & wf (n + n) L].
Proof.
case=> sL wL h; have st : size (take k L) = k by rewrite size_takel // sL leq_addr.
have sd : size (drop k L) = k by rewrite size_drop sL addKn.
split=> //.
- move=> a b /(nthP [::]) [i li <-] /(nthP [::]) [j lj <-]; rewrite st in li lj; rewrite !nth_take // h; [|lia|lia].
  by rewrite !eqF ?subr0 //; lia.
- move=> a b /(nthP [::]) [i li <-] /(nthP [::]) [j lj <-]; rewrite sd in li lj; rewrite !nth_drop h; [|lia|lia].
  by rewrite !eqF ?subr0 //; lia.
split=> [|i j]; rewrite st ?sd // => li lj; rewrite nth_take // nth_drop h; [|lia|lia].
rewrite [(i == k + j + k)%N]eqF; last by lia.
by rewrite subr0; congr (_%:R); lia.
Qed.

Lemma pairs_of n (xs zs : mat) : size xs = n -> size zs = n -> wf (n + n) xs -> wf (n + n) zs ->
  ortho n xs xs -> ortho n zs zs -> dualto n xs zs -> dual_pairs n n (xs ++ zs).
Proof.
move=> sx sz wx wz ox oz [_ d]; apply/dual_pairsP => //; split; apply/matrixP => i j; rewrite gram_ent // !mxE.
- by apply: ox; apply: mem_nth; rewrite sx.
- by apply: oz; apply: mem_nth; rewrite sz.
by rewrite d ?sx.
Qed.

(* the check made by stim *)
Lemma pair_tableP n (A B T : mat) : wf (n + n) A -> wf (n + n) B ->
  size T = size A -> wf (size B) T ->
  (pair_table n A B == T) <-> (forall i j, (i < size A)%N -> (j < size B)%N -> symp n (nth [::] A i) (nth [::] B j) = ent T i j).
Proof.
move=> wA wB sT wT.
have e i j : (i < size A)%N -> (j < size B)%N -> ent (pair_table n A B) i j = symp n (nth [::] A i) (nth [::] B j).
  move=> li lj; have sa := wf_nth wA li; have sb := wf_nth wB lj; rewrite /ent (nth_map [::]) // (nth_map [::]) //.
  rewrite -dot_conj //; rewrite (@dotE _ (n + n)) ?size_conj_row // (@dotE _ (n + n)) ?size_conj_row //.
  by apply: eq_bigr => t _; rewrite mulrC.
split=> [/eqP <- i j li lj | h]; first by rewrite e.
apply/eqP; apply: (@mat_ext _ (size A) (size B)) => //; rewrite ?size_map //.
  by apply/wfP => r /mapP [a _ ->]; rewrite size_mulmv.
by move=> i j li lj; rewrite e // h.
Qed.

Lemma stim_acceptsP n (xs zs : mat) : wf (n + n) xs -> wf (n + n) zs -> size xs = n -> size zs = n ->
  stim_accepts n xs zs <-> dual_pairs n n (xs ++ zs).
Proof.
move=> wx wz sx sz; rewrite /stim_accepts sx sz eqxx /=.
have hx := pair_tableP wx wx (T := zerol F n n); have hz := pair_tableP wz wz (T := zerol F n n).
have hxz := pair_tableP wx wz (T := idl F n).
rewrite ?sx ?sz ?size_zerol ?size_idl ?wf_zerol ?wf_idl in hx hz hxz.
have {}hx := hx erefl isT; have {}hz := hz erefl isT; have {}hxz := hxz erefl isT.
split=> [/and3P [/hx h1 /hz h2 /hxz h3]|dp].
  apply: pairs_of => //.
  - by move=> a b /(nthP [::]) [i li <-] /(nthP [::]) [j lj <-]; rewrite h1 -?sx // ent_zerol.
  - by move=> a b /(nthP [::]) [i li <-] /(nthP [::]) [j lj <-]; rewrite h2 -?sz // ent_zerol.
  by split=> [|i j]; rewrite ?sx // => li lj; rewrite h3 // ent_mkmat.
have [ox oz [_ d] _ _] := pairs_rel dp; rewrite take_size_cat // in ox d; rewrite drop_size_cat // in oz d.
apply/and3P; split.
- by apply/hx => i j li lj; rewrite ent_zerol; apply: ox; apply: mem_nth; rewrite sx.
- by apply/hz => i j li lj; rewrite ent_zerol; apply: oz; apply: mem_nth; rewrite sz.
by apply/hxz => i j li lj; rewrite d ?sx // ent_mkmat.
Qed.

Section Parts.
Variables (n k g : nat) (S L G : mat).
Hypotheses (wS : wf (n + n) S) (dL : dual_pairs n k L) (dG : dual_pairs n g G).
Hypotheses (oSS : ortho n S S) (oSL : ortho n S L) (oSG : ortho n S G) (oLG : ortho n L G).
Hypothesis count : n = (k + g + size S)%N.

Lemma symp_unit p (v : vec) : (p < n + n)%N -> symp n (vunit F (n + n) ((p + n) %% (n + n))) v = nth 0 v p.
Proof.
move=> lp; have n0 : (0 < n + n)%N by lia.
case: (ltnP p n) => h.
  rewrite modn_small; last by lia.
  rewrite /symp (bigD1 (Ordinal h)) //= !nth_mkseq; [|lia|lia].
  have -> : (p == p + n)%N = false by lia.
  rewrite addnC eqxx mul0r sub0r mul1r opp2 big1 ?addr0 // => j nj; rewrite !nth_mkseq; [|have := ltn_ord j; lia|have := ltn_ord j; lia].
  rewrite [(p + n)%N]addnC; have -> : ((j : nat) == n + p)%N = false by have := ltn_ord j; lia.
  by rewrite eqn_add2l (inj_eq val_inj j (Ordinal h)) (negbTE nj) !mul0r subr0.
have -> : ((p + n) %% (n + n) = p - n)%N.
  have -> : (p + n = (p - n) + (n + n))%N by lia.
  by rewrite modnDr modn_small //; lia.
have h2 : (p - n < n)%N by lia.
rewrite /symp (bigD1 (Ordinal h2)) //= !nth_mkseq; [|lia|lia].
rewrite eqxx mul1r; have -> : (n + (p - n) == p - n)%N = false by lia.
rewrite mul0r subr0 big1 ?addr0; first by congr nth; lia.
move=> j nj; rewrite !nth_mkseq; [|have := ltn_ord j; lia|have := ltn_ord j; lia].
have -> : (n + j == p - n)%N = false by have := ltn_ord j; lia.
have -> : ((j : nat) == p - n)%N = false by apply/negbTE; rewrite -[(p - n)%N]/(val (Ordinal h2)) (inj_eq val_inj).
by rewrite !mul0r subr0.
Qed.

Lemma cand_wf : wf (n + n) (destab_candidates n S).
Proof. by apply/wfP => r /mapP [s _ ->]; rewrite size_vunit. Qed.
Lemma cand_symp i j : (i < size S)%N -> (j < size S)%N ->
  symp n (nth [::] (destab_candidates n S) i) (nth [::] S j) = ent S j (first_nz (nth [::] S i)).
Proof.
move=> li lj; have si := wf_nth wS li; have sj := wf_nth wS lj; rewrite (nth_map [::]) // /ent.
have h : (first_nz (nth [::] S i) < n + n)%N \/ first_nz (nth [::] S i) = 0%N.
  by rewrite /first_nz; case: ifP; [left; rewrite -si | right].
case: (posnP n) => [n0 | n0]; last by apply: symp_unit; case: h => [//|->]; lia.
by move: sj; rewrite /symp n0 big_ord0 => /size0nil ->; rewrite nth_nil.
Qed.

(* removal of components along dual pairs *)
Lemma remove_row m (P : mat) (d w : vec) : dual_pairs n m P -> size d = (n + n)%N -> size w = (n + n)%N ->
  symp n (vsub d (vmulm (n + n) (mulmv (symplectic_conjugate n (swap_halves P)) d) P)) w =
  symp n d w - \sum_(i < m) (symp n (nth [::] P (m + i)) d * symp n (nth [::] P i) w + symp n (nth [::] P i) d * symp n (nth [::] P (m + i)) w).
Proof.
case=> sP wP _ sd sw; have hm : (size P %/ 2 = m)%N by rewrite sP; lia.
have st : size (take m P) = m by rewrite size_takel // sP leq_addr.
have sdr : size (drop m P) = m by rewrite size_drop sP addKn.
have sm : size (mulmv (symplectic_conjugate n (swap_halves P)) d) = size P.
  by rewrite size_mulmv size_map /swap_halves hm size_cat st sdr sP.
rewrite symp_vsub; last by rewrite size_vmulm sd.
congr (_ - _); rewrite symp_comb // sP big_split_ord /= -big_split /=; apply: eq_bigr => i _.
have e t : (t < m + m)%N -> nth 0 (mulmv (symplectic_conjugate n (swap_halves P)) d) t = symp n (nth [::] P (if (t < m)%N then (m + t)%N else (t - m)%N)) d.
  move=> lt; have ls : (t < size (swap_halves P))%N by rewrite /swap_halves hm size_cat st sdr.
  have en : nth [::] (swap_halves P) t = nth [::] P (if (t < m)%N then (m + t)%N else (t - m)%N).
    by rewrite /swap_halves hm nth_cat sdr; case: ltnP => h; rewrite ?nth_drop ?nth_take //; lia.
  have wn : size (nth [::] (swap_halves P) t) = (n + n)%N.
    by rewrite en; apply: (wf_nth wP); rewrite sP; move: lt; clear; case: (ltnP t m); lia.
  by rewrite (nth_map [::]) ?size_map // (nth_map [::]) // dot_conj // en.
rewrite !e; [|have := ltn_ord i; lia|have := ltn_ord i; lia].
by rewrite ltn_ord ltnNge leq_addr /= addKn.
Qed.

Lemma remove_ok m (P D : mat) : dual_pairs n m P -> wf (n + n) D ->
  [/\ wf (n + n) (remove_ops n P D), size (remove_ops n P D) = size D, ortho n (remove_ops n P D) P
    & forall i w, (i < size D)%N -> size w = (n + n)%N -> (forall p, p \in P -> symp n p w = 0) ->
        symp n (nth [::] (remove_ops n P D) i) w = symp n (nth [::] D i) w].
Proof.
move=> dP wD; have [sP wP hP] := dP.
have row d w : d \in D -> size w = (n + n)%N -> (forall p, p \in P -> symp n p w = 0) ->
    symp n (vsub d (vmulm (n + n) (mulmv (symplectic_conjugate n (swap_halves P)) d) P)) w = symp n d w.
  move=> hd sw hw; rewrite (remove_row dP (wfm wD hd) sw) big1 ?subr0 // => i _.
  by rewrite !hw ?mulr0 ?addr0 //; apply: mem_nth; rewrite sP; have := ltn_ord i; lia.
split=> [|||i w li sw hw].
- by apply/wfP => r /mapP [d hd ->]; rewrite size_vsub ?size_vmulm (wfm wD).
- by rewrite size_map.
- move=> r p /mapP [d hd ->] /(nthP [::]) [t lt <-]; rewrite (remove_row dP (wfm wD hd) (wf_nth wP lt)).
  rewrite sP in lt; case: (ltnP t m) => h.
    rewrite (bigD1 (Ordinal h)) //= [symp n (nth [::] P t) (nth [::] P t)]symp_self mulr0 add0r.
    rewrite hP; [|lia|lia]; rewrite [(t == m + t + m)%N]eqF; last by lia.
    rewrite [(m + t)%N]addnC eqxx big1; last first.
      move=> i ni; have ne : (i : nat) <> t by move=> e; case/eqP: ni; apply: val_inj.
      by rewrite !hP ?(eqF _) ?subrr ?mulr0 ?addr0 //; have := ltn_ord i; lia.
    by rewrite addr0 sub0r mulrN1 opp2 symp_sym subrr.
  have h2 : (t - m < m)%N by lia.
  rewrite (bigD1 (Ordinal h2)) //=; have -> : (m + (t - m) = t)%N by lia.
  rewrite symp_self mulr0 addr0 hP; [|lia|lia].
  rewrite [(t - m == t + m)%N]eqF; last by lia.
  rewrite big1; last first.
    move=> i ni; have ne : (i : nat) <> (t - m)%N by move=> e; case/eqP: ni; apply: val_inj.
    by rewrite !hP ?(eqF _) ?subrr ?mulr0 ?addr0 //; have := ltn_ord i; lia.
  have -> : (t == t - m + m)%N by lia.
  by rewrite subr0 mulr1 addr0 symp_sym subrr.
by rewrite (nth_map [::]) // row // mem_nth.
Qed.

(* the loop *)
Lemma fix_S (D : mat) : wf (n + n) D -> size D = size S ->
  [/\ wf (n + n) (fix_destabs n S D), size (fix_destabs n S D) = size D
    & forall i j, (i < size D)%N -> (j < size S)%N -> symp n (nth [::] (fix_destabs n S D) i) (nth [::] S j) = symp n (nth [::] D i) (nth [::] S j)].
Proof.
move=> wD sD.
suff : forall m, (m <= size D)%N -> let acc := fix_destabs n S (take m D) in
  [/\ wf (n + n) acc, size acc = m & forall i j, (i < m)%N -> (j < size S)%N -> symp n (nth [::] acc i) (nth [::] S j) = symp n (nth [::] D i) (nth [::] S j)].
  by move=> /(_ (size D) (leqnn _)) /=; rewrite take_size.
elim=> [|m IH] lm; first by rewrite take0.
have [IH2 IH3 IH4] := IH (ltnW lm); rewrite (take_nth [::]) // /fix_destabs -cats1 foldl_cat.
rewrite -/(fix_destabs n S (take m D)) /=; set acc := fix_destabs n S (take m D) in IH2 IH3 IH4 *.
set d := nth [::] D m; have sd : size d = (n + n)%N by apply: wf_nth.
rewrite IH3; set d' := vsub _ _.
have lmS : (m < size S)%N by rewrite -sD.
have sT : size (take m S) = m by rewrite size_takel // ltnW.
have sc : size (mulmv (symplectic_conjugate n acc) d) = size (take m S) by rewrite size_mulmv size_map IH3 sT.
have sd' : size d' = (n + n)%N by rewrite size_vsub ?size_vmulm.
split.
- by apply/wfP => x; rewrite mem_rcons inE => /orP [/eqP ->|/(wfm IH2)].
- by rewrite size_rcons IH3.
move=> i j; rewrite ltnS leq_eqVlt nth_rcons IH3 => /orP [/eqP -> lj|li lj]; last by rewrite li IH4.
rewrite ltnn eqxx symp_vsub ?size_vmulm // symp_comb // big1 ?subr0 // => t _.
rewrite [X in _ * X]oSS ?mulr0 ?mem_nth //; apply: mem_take (mem_nth _ _); exact: ltn_ord.
Qed.

Lemma fix_ok (D : mat) : wf (n + n) D -> size D = size S -> dualto n D S ->
  (forall w, size w = (n + n)%N -> (forall s, s \in S -> symp n s w = 0) -> (forall d, d \in D -> symp n d w = 0) ->
     forall d, d \in fix_destabs n S D -> symp n d w = 0) /\
  [/\ wf (n + n) (fix_destabs n S D), dualto n (fix_destabs n S D) S & ortho n (fix_destabs n S D) (fix_destabs n S D)].
Proof.
move=> wD sD [_ dD].
suff : forall m, (m <= size D)%N -> let acc := fix_destabs n S (take m D) in
  (forall w, size w = (n + n)%N -> (forall s, s \in S -> symp n s w = 0) -> (forall d, d \in D -> symp n d w = 0) ->
     forall d, d \in acc -> symp n d w = 0) /\
  [/\ wf (n + n) acc, size acc = m, forall i j, (i < m)%N -> (j < size S)%N -> symp n (nth [::] acc i) (nth [::] S j) = (i == j)%:R
    & ortho n acc acc].
  move=> /(_ (size D) (leqnn _)) /=; rewrite take_size => -[h1 [h2 h3 h4 h5]]; split=> //; split=> //.
  by split=> [|i j]; rewrite h3 ?sD // => li lj; rewrite h4 ?sD.
elim=> [|m IH] lm; first by rewrite take0.
have [IH1 [IH2 IH3 IH4 IH5]] := IH (ltnW lm); rewrite (take_nth [::]) // /fix_destabs -cats1 foldl_cat.
rewrite -/(fix_destabs n S (take m D)) /=; set acc := fix_destabs n S (take m D) in IH1 IH2 IH3 IH4 IH5 *.
set d := nth [::] D m; have sd : size d = (n + n)%N by apply: wf_nth.
rewrite IH3; set d' := vsub _ _.
have lmS : (m < size S)%N by rewrite -sD.
have sT : size (take m S) = m by rewrite size_takel // ltnW.
have sc : size (mulmv (symplectic_conjugate n acc) d) = size (take m S) by rewrite size_mulmv size_map IH3 sT.
have sd' : size d' = (n + n)%N by rewrite size_vsub ?size_vmulm.
have val w : symp n d' w = symp n d w - \sum_(i < m) symp n (nth [::] acc i) d * symp n (nth [::] S i) w.
  rewrite symp_vsub ?size_vmulm // symp_comb // sT; congr (_ - _); apply: eq_bigr => i _; rewrite nth_take //; congr (_ * _).
  rewrite (nth_map [::]) ?size_map ?IH3 // (nth_map [::]) ?IH3 // dot_conj //; by apply: wf_nth; rewrite ?IH3.
have dS j : (j < size S)%N -> symp n d' (nth [::] S j) = (m == j)%:R.
  move=> lj; rewrite val dD // ?sD // big1 ?subr0 // => i _; rewrite [X in _ * X]oSS ?mulr0 ?mem_nth //.
  by apply: ltn_trans lmS.
have dacc i : (i < m)%N -> symp n d' (nth [::] acc i) = 0.
  move=> li; rewrite val (bigD1 (Ordinal li)) //= big1 => [|j nj].
    rewrite [symp n (nth [::] S i) _]symp_sym IH4 // ?eqxx ?mulr1 ?addr0 1?symp_sym ?subrr //; lia.
  rewrite [symp n (nth [::] S j) _]symp_sym IH4 //; last by have := ltn_ord j; lia.
  by have -> : (i == j) = false; rewrite ?mulr0 //; apply/eqP => e; case/eqP: nj; apply: val_inj.
split.
  move=> w sw hS hD x; rewrite mem_rcons inE => /orP [/eqP ->|]; last exact: IH1.
  rewrite val hD ?mem_nth // big1 ?subr0 // => i _; rewrite hS ?mulr0 // mem_nth //.
  by apply: ltn_trans lmS.
split.
- by apply/wfP => x; rewrite mem_rcons inE => /orP [/eqP ->|/(wfm IH2)].
- by rewrite size_rcons IH3.
- move=> i j; rewrite ltnS leq_eqVlt nth_rcons IH3 => /orP [/eqP -> lj|li lj]; first by rewrite ltnn eqxx dS.
  by rewrite li IH4.
move=> a b; rewrite !mem_rcons !inE => /orP [/eqP ->|ha] /orP [/eqP ->|hb].
- exact: symp_self.
- by case/(nthP [::]): hb => i; rewrite IH3 => li <-; apply: dacc.
- by rewrite symp_sym; case/(nthP [::]): ha => i; rewrite IH3 => li <-; apply: dacc.
exact: IH5.
Qed.

(* the relations between destabilizers and stabilizers *)
Lemma destab_symp : let D := destabilizers n S L G in
  [/\ wf (n + n) D, size D = size S
    & forall i j, (i < size S)%N -> (j < size S)%N -> symp n (nth [::] D i) (nth [::] S j) = ent S j (first_nz (nth [::] S i))].
Proof.
have [w1 s1 o1 e1] := remove_ok dL cand_wf; have [w2 s2 o2 e2] := remove_ok dG w1.
have sC : size (destab_candidates n S) = size S by rewrite size_map.
have [w3 s3 e3] := fix_S w2 (etrans s2 (etrans s1 sC)).
rewrite /destabilizers; split=> [//||i j li lj]; first by rewrite s3 s2 s1.
have sj : size (nth [::] S j) = (n + n)%N by apply: wf_nth.
rewrite e3 ?s2 ?s1 ?sC // e2 ?s1 ?sC //; last by move=> p hp; rewrite symp_sym oSG // mem_nth.
by rewrite e1 ?sC ?cand_symp //; move=> p hp; rewrite symp_sym oSL // mem_nth.
Qed.

Lemma tableau_needs t : tableau_of n k g S L G = Some t -> unit_pivots S.
Proof.
rewrite /tableau_of; case: ifP => // h _ i j li lj.
have [wL _] : wf (n + n) L /\ True by case: dL. have [wG _] : wf (n + n) G /\ True by case: dG.
have [wD sD eD] := destab_symp.
have [sLL _ _] := dL; have [sGG _ _] := dG.
have sLx : size (take k L) = k by rewrite size_takel // sLL leq_addr. have sGx : size (take g G) = g by rewrite size_takel // sGG leq_addr.
have sLz : size (drop k L) = k by rewrite size_drop sLL addKn. have sGz : size (drop g G) = g by rewrite size_drop sGG addKn.
have [sx sz] : size (take k L ++ take g G ++ destabilizers n S L G) = n /\ size (drop k L ++ drop g G ++ S) = n.
  by rewrite !size_cat sLx sGx sD sLz sGz addnA -count.
have dp : dual_pairs n n ((take k L ++ take g G ++ destabilizers n S L G) ++ (drop k L ++ drop g G ++ S)).
  by apply/stim_acceptsP => //; rewrite ?wf_cat ?wf_take ?wf_drop.
have [_ _ [_ d] _ _] := pairs_rel dp; rewrite take_size_cat // drop_size_cat // in d.
have lt t' : (t' < size S)%N -> (k + g + t' < n)%N by move=> lt'; rewrite count ltn_add2l.
have := d (k + g + j)%N (k + g + i)%N; rewrite sx => /(_ (lt _ lj) (lt _ li)).
have skip (A B C : mat) a b t' : size A = a -> size B = b -> nth [::] (A ++ B ++ C) (a + b + t') = nth [::] C t'.
  by move=> <- <-; rewrite catA -size_cat nth_cat ltnNge leq_addr /= addKn.
by rewrite !skip // eD // => ->; rewrite eqn_add2l eq_sym.
Qed.

Lemma tableau_ok : unit_pivots S -> exists xs zs, tableau_of n k g S L G = Some (xs, zs) /\
  [/\ dual_pairs n n (xs ++ zs), size xs = n, take k xs = take k L /\ take k zs = drop k L,
      take g (drop k xs) = take g G /\ take g (drop k zs) = drop g G & drop (k + g) zs = S].
Proof.
move=> piv; have [oLx oLz dLL sLx wL] := pairs_rel dL; have [oGx oGz dGG sGx wG] := pairs_rel dG.
have [sLL _ _] := dL; have [sGG _ _] := dG.
have sLz : size (drop k L) = k by rewrite size_drop sLL addKn.
have sGz : size (drop g G) = g by rewrite size_drop sGG addKn.
have [w1 s1 o1 e1] := remove_ok dL cand_wf; have [w2 s2 o2 e2] := remove_ok dG w1.
set D1 := remove_ops n L _ in w1 s1 o1 e1 w2 s2 o2 e2; set D2 := remove_ops n G D1 in w2 s2 o2 e2.
have oD2L : ortho n D2 L.
  move=> a b /(nthP [::]) [i]; rewrite s2 => li <- hb.
  rewrite e2 //; last by move=> p hp; rewrite symp_sym; apply: oLG.
    by apply: o1 => //; apply: mem_nth.
  exact: (wfm wL).
have dD2 : dualto n D2 S.
  split=> [|i j]; rewrite s2 s1 size_map // => li lj.
  have sj : size (nth [::] S j) = (n + n)%N by apply: wf_nth.
  rewrite e2 ?s1 ?size_map //; last by move=> p hp; rewrite symp_sym oSG // mem_nth.
  rewrite e1 ?size_map //; last by move=> p hp; rewrite symp_sym oSL // mem_nth.
  by rewrite cand_symp // piv // eq_sym.
have sD2 : size D2 = size S by case: dD2.
have [orth [wD dD oDD]] := fix_ok w2 sD2 dD2; rewrite -/(destabilizers n S L G) in orth wD dD oDD.
set D := destabilizers n S L G in orth wD dD oDD.
have oDL : ortho n D L.
  move=> a b ha hb; apply: (orth b) => //; [exact: (wfm wL) | by move=> s hs; apply: oSL | by move=> d hd; apply: oD2L].
have oDG : ortho n D G.
  move=> a b ha hb; apply: (orth b) => //; [exact: (wfm wG) | by move=> s hs; apply: oSG | by move=> d hd; apply: o2].
have sub A B A' B' : ortho n A B -> {subset A' <= A} -> {subset B' <= B} -> ortho n A' B'.
  by move=> h hA hB a b /hA ha /hB hb; apply: h.
have tL : {subset take k L <= L} by move=> x; apply: mem_take. have dL' : {subset drop k L <= L} by move=> x; apply: mem_drop.
have tG : {subset take g G <= G} by move=> x; apply: mem_take. have dG' : {subset drop g G <= G} by move=> x; apply: mem_drop.
have id (A : mat) : {subset A <= A} by [].
have sD : size D = size S by case: dD.
exists (take k L ++ take g G ++ D), (drop k L ++ drop g G ++ S).
have dp : dual_pairs n n ((take k L ++ take g G ++ D) ++ (drop k L ++ drop g G ++ S)).
  apply: pairs_of.
  - by rewrite !size_cat sLx sGx sD addnA -count.
  - by rewrite !size_cat sLz sGz addnA -count.
  - by rewrite !wf_cat wf_take // wf_take.
  - by rewrite !wf_cat wf_drop // wf_drop.
  - have a1 := sub _ _ _ _ oLG tL tG; have a2 := sub _ _ _ _ oDL (id _) tL; have a3 := sub _ _ _ _ oDG (id _) tG.
    by repeat first [apply: ortho_catl | apply: ortho_catr]; rewrite //; apply: ortho_sym.
  - have a1 := sub _ _ _ _ oLG dL' dG'; have a2 := sub _ _ _ _ oSL (id _) dL'; have a3 := sub _ _ _ _ oSG (id _) dG'.
    by repeat first [apply: ortho_catl | apply: ortho_catr]; rewrite //; apply: ortho_sym.
  apply: dualto_cat => //.
  - apply: dualto_cat => //; first by apply: ortho_sym; apply: sub oSG (id _) tG.
    exact: sub oDG (id _) dG'.
  - apply: ortho_catr; first exact: sub oLG tL dG'.
    by apply: ortho_sym; apply: sub oSL (id _) tL.
  apply: ortho_catl; last exact: sub oDL (id _) dL'.
  by apply: ortho_sym; apply: sub oLG dL' tG.
have [sx sz] : size (take k L ++ take g G ++ D) = n /\ size (drop k L ++ drop g G ++ S) = n.
  by rewrite !size_cat sLx sGx sD sLz sGz addnA -count.
split.
  rewrite /tableau_of -/D; have -> : stim_accepts n (take k L ++ take g G ++ D) (drop k L ++ drop g G ++ S) => //.
  by apply/stim_acceptsP => //; rewrite ?wf_cat ?wf_take ?wf_drop.
split=> //.
- by rewrite !take_size_cat.
- by rewrite !drop_size_cat // !take_size_cat.
by rewrite catA drop_size_cat // size_cat sLz sGz.
Qed.
End Parts.

(* the operators of a code: S generates the centre of A, L are logical operators and G gauge operators *)
Lemma code_parts n k g (A S L G : mat) : wf (n + n) A -> center_basis n A S -> logical_basis n k A L -> dual_pairs n g G ->
  (forall v, v \in G -> span (n + n) A v) ->
  [/\ wf (n + n) S, ortho n S S, ortho n S L, ortho n S G & ortho n L G].
Proof.
move=> wA [wS _ hS] [dL oL] dG hG.
have wL : wf (n + n) L by case: dL. have wG : wf (n + n) G by case: dG.
have inS s : s \in S -> central n A s.
  by move=> sS; apply/hS/spanP; split; [exact: (wfm wS) | exact: mem_sp].
have comb v w : span (n + n) A v -> (forall r, r \in A -> symp n r w = 0) -> symp n v w = 0.
  move=> [c [sc sv hv]] hw.
  have -> : v = vmulm (n + n) c A.
    have [_ sm e] := vmulm_comb (n + n) sc; apply: (@eq_from_nth _ 0) => [|j]; first by rewrite sv sm.
    by rewrite sv => lj; rewrite hv // e.
  by rewrite symp_comb // big1 // => i _; rewrite hw ?mulr0 // mem_nth.
split=> //.
- by move=> a b ha hb; have [h _] := inS _ ha; have [_ h'] := inS _ hb; apply: comb.
- by move=> a b ha hb; have [h _] := inS _ ha; apply: comb => // r rA; apply: oL.
- by move=> a b ha hb; rewrite symp_sym; have [_ h'] := inS _ ha; apply: comb => //; apply: hG.
by move=> a b ha hb; rewrite symp_sym; apply: comb; [apply: hG | move=> r rA; apply: oL].
Qed.

Lemma tableau_code n k g (A S L G : mat) : wf (n + n) A -> center_basis n A S -> logical_basis n k A L -> dual_pairs n g G ->
  (forall v, v \in G -> span (n + n) A v) -> n = (k + g + size S)%N ->
  ((exists t, tableau_of n k g S L G = Some t) <-> unit_pivots S) /\
  (forall xs zs, tableau_of n k g S L G = Some (xs, zs) -> encodes n k g A xs zs /\
     [/\ take k xs = take k L, take k zs = drop k L & drop (k + g) zs = S]).
Proof.
move=> wA cS lL dG hG count; have [wS o1 o2 o3 o4] := code_parts wA cS lL dG hG; have [dL _] := lL.
have ok := tableau_ok wS dL dG o1 o2 o3 o4 count; have need := tableau_needs wS dL dG o1 o2 o3 count.
split=> [|xs zs e].
  split=> [[t]|/ok [xs [zs [e _]]]]; first exact: need.
  by exists (xs, zs).
have [xs' [zs' [e' [h1 h2 [h3 h4] [h5 h6] h7]]]] := ok (need _ e).
have [ex ez] : xs = xs' /\ zs = zs' by move: e'; rewrite e => -[-> ->].
rewrite ex ez; split=> //; split=> //.
- by rewrite h3 h4 cat_take_drop.
- by rewrite h5 h6 cat_take_drop.
by rewrite h7.
Qed.

(* ------------------------------------------------------------------ QuditCode objects *)
Lemma stab_state (c : qcode F) r cz : q_gauge (get_stabilizer_ops c r cz).2 = q_gauge c.
Proof. by rewrite /get_stabilizer_ops; case: (q_sub c) => //=; case: ifP. Qed.

Lemma rref_pivots n (A : mat) : is_rref n A -> unit_pivots A.
Proof. by case=> _ _ _ h i j li lj; apply: h. Qed.

Lemma stab_ops_pivots (c : qcode F) r : q_ok c -> q_sub c = false \/ r = true \/ q_stab c = None ->
  unit_pivots (get_stabilizer_ops c r true).1.
Proof.
move=> [wA _ _ _ _] h; apply: rref_pivots; rewrite /get_stabilizer_ops.
case es: (q_sub c) h => h /=; last exact: canon_rref.
have [rF _] := compute_stabs_ok (wf_canon wA).
have -> : match q_stab c with Some s => if r then compute_stabs (q_n c) (canon (q_n c + q_n c) (q_mat c)) else s
          | None => compute_stabs (q_n c) (canon (q_n c + q_n c) (q_mat c)) end =
          compute_stabs (q_n c) (canon (q_n c + q_n c) (q_mat c)).
  by case: h => [|[-> | ->]] //; case: (q_stab c).
by case: ifP.
Qed.

Lemma stab_basis (c : qcode F) r : q_ok c -> center_basis (q_n c) (q_mat c) (get_stabilizer_ops c r true).1.
Proof.
move=> ok; have [ws e fr _ _] := stab_ops_ok r true ok; have [wA _ _ _ _] := ok.
by split=> //; [apply/(indepP ws)/fr | apply/center_span].
Qed.

(* the dimensions do not change when the stabilizers are computed *)
Lemma stab_dims (c : qcode F) r cz : q_ok c -> let c1 := (get_stabilizer_ops c r cz).2 in
  q_dimension c1 = q_dimension c /\ q_gauge_dimension c1 = q_gauge_dimension c.
Proof.
move=> ok c1; have [_ _ _ ok1 [en [em es]]] := stab_ops_ok r cz ok; have [wA _ _ _ _] := ok.
have h := dimension_counts ok; have h1 := dimension_counts ok1; rewrite en em in h1.
exact: (counts_unique wA h1 h).
Qed.

(* the state of a CSSCode after get_stabilizer_ops *)
Lemma c_state_ok (c : csscode F) : c_ok c -> let c1 := (c_get_stabilizer_ops c false true).2 in
  [/\ c_ok c1, c_n c1 = c_n c, c_x c1 = c_x c /\ c_z c1 = c_z c, c_gauge c1 = c_gauge c
    & c_dimension c1 = c_dimension c /\ c_gauge_dimension c1 = c_gauge_dimension c].
Proof.
move=> ok c1; have [okq wX wW ty lg] := ok; have typed := @c_stab_typed _ c false true ok.
have [_ e2] := c_stab_q false true wX wW; rewrite -/c1 in e2.
have [_ _ _ ok1 _] := stab_ops_ok false true okq; rewrite -e2 in ok1.
have [ek eg] := stab_dims false true okq; rewrite -e2 in ek eg.
have cases : c1 = c \/ c1 = c_set_stab c (c_get_stabilizer_ops c false true).1.
  by rewrite /c1 /c_get_stabilizer_ops; case: (c_sub c) => /=; [right; case: ifP | left].
have [[sn [sx sz]] [sg sl]] : (c_n c1 = c_n c /\ c_x c1 = c_x c /\ c_z c1 = c_z c) /\ c_gauge c1 = c_gauge c /\ c_logs c1 = c_logs c.
  by case: cases => ->.
have wX1 : wf (c_n c1) (c_x c1) by rewrite sn sx.
have wW1 : wf (c_n c1) (c_z c1) by rewrite sn sz.
split=> //; last by rewrite !(c_dimension_q, c_gauge_dimension_q).
split=> //; rewrite ?sn ?sl //; move=> s; case: cases => ->; first exact: ty.
by case=> <- r; apply: typed.
Qed.

Lemma css_tableau_ok (c : csscode F) : c_ok c -> c_gauge c = None ->
  let n := c_n c in let A := css_mat n (c_x c) (c_z c) in let S := (c_get_stabilizer_ops c false true).1 in
  ((exists t, css_encoding_tableau c = Some t) <-> unit_pivots S) /\
  (forall xs zs, css_encoding_tableau c = Some (xs, zs) ->
     encodes n (c_dimension c) (c_gauge_dimension c) A xs zs /\ drop (c_dimension c + c_gauge_dimension c) zs = S).
Proof.
move=> ok gN n A S; have [okq wX wW _ _] := ok; have wA : wf (n + n) A by apply: wf_css.
have [e1 _] := c_stab_q false true wX wW; rewrite -/S in e1.
have cS := stab_basis false okq; rewrite -e1 in cS.
have [cnt _] := bookkeeping okq; rewrite -e1 -c_dimension_q // -c_gauge_dimension_q // in cnt.
have [ok1 en [ex ez] eg [ek egd]] := c_state_ok ok.
rewrite /css_encoding_tableau; case ec: (c_get_stabilizer_ops c false true) @S ok1 en ex ez eg ek egd e1 cS cnt => [S c1] /= ok1 en ex ez eg ek egd e1 cS cnt.
rewrite gN in eg; have [G [L [eG eL dG h1 h2]]] := c_gauge_ok ok1 eg.
have [lx [lz [eL' _ _ lb]]] := c_logicals_ok false ok1; rewrite eL in eL'; case: eL' => eL'; rewrite -eL' in lb.
rewrite eL eG en ex ez ek egd in lb dG h1 h2 *.
have hG v : v \in G -> span (n + n) A v.
  move=> vG; apply/h2/spanP; split; last by apply: mem_sp; rewrite mem_cat vG orbT.
  by have [_ wG _] := dG; apply: (wfm wG).
have [h3 h4] := tableau_code wA cS lb dG hG cnt.
by split=> // xs zs /h4 [h5 [_ _ h6]].
Qed.

(* stabilizer codes; the logical operators are those of get_logical_ops *)
Lemma stabilizer_tableau_ok (c : qcode F) : q_ok c -> q_sub c = false ->
  exists xs zs L, [/\ encoding_tableau c = Some (xs, zs), get_logical_ops c = Some L,
    encodes (q_n c) (q_dimension c) 0 (q_mat c) xs zs, L = take (q_dimension c) xs ++ take (q_dimension c) zs
    & drop (q_dimension c) zs = (get_stabilizer_ops c false true).1].
Proof.
move=> ok ns; have [L [eL lb]] := stab_logical_ops ok ns; have [wA _ _ _ _] := ok.
have cS := stab_basis false ok; have pv := stab_ops_pivots ok (or_introl ns).
have [cnt _] := bookkeeping ok.
have g0 : q_gauge_dimension c = 0%N by rewrite /q_gauge_dimension ns.
have e : get_stabilizer_ops c false true = ((get_stabilizer_ops c false true).1, c) by rewrite /get_stabilizer_ops ns.
have dG : dual_pairs (q_n c) 0 ([::] : mat) by split.
have [h1 h2] := tableau_code wA cS lb dG (fun v (h : v \in [::]) => False_rect _ (Bool.diff_false_true h)) (etrans cnt (congr1 (fun t => _ + t + _)%N g0)).
have [[xs zs] et] := proj2 h1 (pv false); have [h3 [h4 h5 h6]] := h2 _ _ et.
exists xs, zs, L; split=> //; last by rewrite -h6 addn0.
  by rewrite /encoding_tableau e eL /q_get_gauge_ops ns /= g0.
by rewrite h4 h5 cat_take_drop.
Qed.

(* subsystem codes which are not CSS codes: if the computations of logical and gauge operators give the right result *)
Lemma subsystem_tableau_ok (c : qcode F) L G : q_ok c -> 
  let c1 := (get_stabilizer_ops c false true).2 in let S := (get_stabilizer_ops c false true).1 in
  get_logical_ops c1 = Some L -> logical_basis (q_n c) (q_dimension c) (q_mat c) L ->
  q_get_gauge_ops c1 = Some G -> dual_pairs (q_n c) (q_gauge_dimension c) G ->
  (forall v, v \in G -> span (q_n c + q_n c) (q_mat c) v) ->
  ((exists t, encoding_tableau c = Some t) <-> unit_pivots S) /\
  (forall xs zs, encoding_tableau c = Some (xs, zs) ->
     encodes (q_n c) (q_dimension c) (q_gauge_dimension c) (q_mat c) xs zs /\
     drop (q_dimension c + q_gauge_dimension c) zs = S).
Proof.
move=> ok; have cS := stab_basis false ok; have [wA _ _ _ _] := ok; have [cnt _] := bookkeeping ok.
have [ek eg] := stab_dims false true ok; rewrite /encoding_tableau.
case ec: (get_stabilizer_ops c false true) cS cnt ek eg => [S c1] /= cS cnt ek eg eL lb eG dG hG.
rewrite eL eG ek eg; have [h3 h4] := tableau_code wA cS lb dG hG cnt.
by split=> // xs zs /h4 [h5 [_ _ h6]].
Qed.
End Proofs.
