(* Permutations of qudits, and the standard form of the parity checks of a stabilizer code. *)
From mathcomp Require Import all_ssreflect all_algebra zify.
From Verif Require Import LinAlg RowReduce Classical ClassicalProofs ClassicalProofs2 Symplectic Quantum QuantumProofs.
Set Implicit Arguments.
Unset Strict Implicit.
Unset Printing Implicit Defensive.
Import GRing.Theory.
Local Open Scope ring_scope.

Section Perm.
Variable F : fieldType.
Notation vec := (seq F).
Notation mat := (seq (seq F)).

(* permutation of the qudits in one row *)
Definition permr (n : nat) (p : seq nat) (r : vec) : vec := vsel p (take n r) ++ vsel p (drop n r).

Lemma permqE n p (A : mat) : permq n p A = map (permr n p) A. Proof. by []. Qed.

Lemma size_permr n p (r : vec) : size p = n -> size (permr n p r) = (n + n)%N.
Proof. by move=> sp; rewrite size_cat !size_vsel sp. Qed.

Lemma wf_permq n p (A : mat) : size p = n -> wf (n + n) (permq n p A).
Proof. by move=> sp; apply/wfP => r /mapP [q _ ->]; apply: size_permr. Qed.

Lemma size_permq n p (A : mat) : size (permq n p A) = size A. Proof. by rewrite size_map. Qed.

Lemma perm_iota_lt n p i : perm_eq p (iota 0 n) -> (i < n)%N -> (nth 0%N p i < n)%N.
Proof.
move=> pe li; have : nth 0%N p i \in p by rewrite mem_nth // (perm_size pe) size_iota.
by rewrite (perm_mem pe) mem_iota add0n.
Qed.

Lemma nth_permr_x n p (r : vec) j : perm_eq p (iota 0 n) -> size r = (n + n)%N -> (j < n)%N ->
  nth 0 (permr n p r) j = nth 0 r (nth 0%N p j).
Proof.
move=> pe sr lj; have sp : size p = n by rewrite (perm_size pe) size_iota.
by rewrite nth_cat size_vsel sp lj (nth_map 0%N) ?sp // nth_take // (perm_iota_lt pe).
Qed.

Lemma nth_permr_z n p (r : vec) j : perm_eq p (iota 0 n) -> size r = (n + n)%N -> (j < n)%N ->
  nth 0 (permr n p r) (n + j) = nth 0 r (n + nth 0%N p j).
Proof.
move=> pe sr lj; have sp : size p = n by rewrite (perm_size pe) size_iota.
by rewrite nth_cat size_vsel sp ltnNge leq_addr /= addKn (nth_map 0%N) ?sp // nth_drop.
Qed.

Lemma big_perm_iota n p (f : nat -> F) : perm_eq p (iota 0 n) -> \sum_(j < n) f (nth 0%N p j) = \sum_(j < n) f j.
Proof.
move=> pe; have sp : size p = n by rewrite (perm_size pe) size_iota.
have -> : \sum_(j < n) f j = \sum_(j <- iota 0 n) f j by rewrite -[in RHS](subn0 n) big_mkord.
have -> : \sum_(j <- iota 0 n) f j = \sum_(j <- p) f j by apply: perm_big; rewrite perm_sym.
by rewrite (big_nth 0%N) sp big_mkord.
Qed.

(* commutation is not affected by permuting the qudits of both operators *)
Lemma symp_permr n p (u v : vec) : perm_eq p (iota 0 n) -> size u = (n + n)%N -> size v = (n + n)%N ->
  symp n (permr n p u) (permr n p v) = symp n u v.
Proof.
move=> pe su sv.
rewrite /symp -(big_perm_iota (fun j => nth 0 u j * nth 0 v (n + j) - nth 0 u (n + j) * nth 0 v j) pe).
by apply: eq_bigr => j _; rewrite !nth_permr_z ?nth_permr_x.
Qed.

(* argsort *)
Lemma size_argsort p : size (argsort p) = size p. Proof. by rewrite size_map size_iota. Qed.

Lemma nth_argsort n p i : perm_eq p (iota 0 n) -> (i < n)%N -> nth 0%N p (nth 0%N (argsort p) i) = i.
Proof.
move=> pe li; have sp : size p = n by rewrite (perm_size pe) size_iota.
by rewrite (nth_map 0%N) ?size_iota ?sp // nth_iota // add0n nth_index // (perm_mem pe) mem_iota add0n.
Qed.

Lemma argsort_nth n p i : perm_eq p (iota 0 n) -> (i < n)%N -> nth 0%N (argsort p) (nth 0%N p i) = i.
Proof.
move=> pe li; have sp : size p = n by rewrite (perm_size pe) size_iota.
have up : uniq p by rewrite (perm_uniq pe) iota_uniq.
have lt := perm_iota_lt pe li.
by rewrite (nth_map 0%N) ?size_iota ?sp // nth_iota // add0n index_uniq ?sp.
Qed.

Lemma argsort_perm n p : perm_eq p (iota 0 n) -> perm_eq (argsort p) (iota 0 n).
Proof.
move=> pe; have sp : size p = n by rewrite (perm_size pe) size_iota.
have up : uniq p by rewrite (perm_uniq pe) iota_uniq.
have ua : uniq (argsort p).
  rewrite map_inj_in_uniq ?iota_uniq // => i j; rewrite !mem_iota !add0n sp => /= li lj e.
  have ip : i \in p by rewrite (perm_mem pe) mem_iota.
  have jp : j \in p by rewrite (perm_mem pe) mem_iota.
  by rewrite -[i](nth_index 0%N ip) e nth_index.
apply: uniq_perm; rewrite ?iota_uniq //.
apply: (uniq_min_size ua _ _).2; last by rewrite size_iota size_argsort sp.
move=> x /mapP [i]; rewrite mem_iota add0n sp => /= li ->.
by rewrite mem_iota add0n /= -sp index_mem (perm_mem pe) mem_iota.
Qed.

Lemma permr_argsort n p (r : vec) : perm_eq p (iota 0 n) -> size r = (n + n)%N ->
  permr n p (permr n (argsort p) r) = r.
Proof.
move=> pe sr; have sp : size p = n by rewrite (perm_size pe) size_iota.
have pa := argsort_perm pe.
have sa : size (argsort p) = n by rewrite size_argsort.
apply: (@eq_from_nth _ 0); first by rewrite size_permr ?sr.
move=> j; rewrite size_permr // => lj; have [l1 | l2] := ltnP j n.
  rewrite nth_permr_x ?size_permr // nth_permr_x // ?(perm_iota_lt pe) //.
  by rewrite (argsort_nth pe).
have -> : j = (n + (j - n))%N by lia.
rewrite nth_permr_z ?size_permr //; last by lia.
rewrite nth_permr_z ?(perm_iota_lt pe) //; try lia.
by rewrite (argsort_nth pe) //; lia.
Qed.

Lemma symp_argsort n p (u v : vec) : perm_eq p (iota 0 n) -> size u = (n + n)%N -> size v = (n + n)%N ->
  symp n u (permr n (argsort p) v) = symp n (permr n p u) v.
Proof.
move=> pe su sv; have sp : size p = n by rewrite (perm_size pe) size_iota.
by rewrite -(symp_permr pe) ?permr_argsort // size_permr // size_argsort.
Qed.

(* composition *)
Lemma permr_comp n p q (r : vec) : perm_eq p (iota 0 n) -> perm_eq q (iota 0 n) -> size r = (n + n)%N ->
  permr n q (permr n p r) = permr n [seq nth 0%N p i | i <- q] r.
Proof.
move=> pe qe sr; have sp : size p = n by rewrite (perm_size pe) size_iota.
have sq : size q = n by rewrite (perm_size qe) size_iota.
rewrite /permr; set u := vsel p (take n r); set v := vsel p (drop n r).
have su : size u = n by rewrite size_vsel.
rewrite take_cat drop_cat su ltnn subnn take0 drop0 cats0 /vsel -!map_comp; congr (_ ++ _).
  apply/eq_in_map => i iq /=; rewrite (nth_map 0%N) // sp.
  by move: iq; rewrite (perm_mem qe) mem_iota.
apply/eq_in_map => i iq /=; rewrite (nth_map 0%N) // sp.
by move: iq; rewrite (perm_mem qe) mem_iota.
Qed.

Lemma perm_comp n p q : perm_eq p (iota 0 n) -> perm_eq q (iota 0 n) ->
  perm_eq [seq nth 0%N p i | i <- q] (iota 0 n).
Proof.
move=> pe qe; have sp : size p = n by rewrite (perm_size pe) size_iota.
apply: perm_trans (perm_map _ qe) _; have -> : [seq nth 0%N p i | i <- iota 0 n] = p by rewrite -sp -/(mkseq _ _) mkseq_nth.
exact: pe.
Qed.

(* a permutation that moves the positions ps to the end *)
Lemma perm_to_back n ps : uniq ps -> all (fun q => q < n)%N ps ->
  perm_eq ([seq q <- iota 0 n | q \notin ps] ++ ps) (iota 0 n).
Proof.
move=> up /allP lt; apply: uniq_perm; rewrite ?iota_uniq //.
  rewrite cat_uniq filter_uniq ?iota_uniq // up andbT /=; apply/hasPn => q qp; by rewrite /= mem_filter qp.
move=> q; rewrite mem_cat mem_filter; case: (boolP (q \in ps)) => qp /=; last by rewrite orbF.
by rewrite mem_iota add0n lt.
Qed.

Lemma size_back n ps : uniq ps -> all (fun q => q < n)%N ps -> size [seq q <- iota 0 n | q \notin ps] = (n - size ps)%N.
Proof.
by move=> u a; have := perm_size (perm_to_back u a); rewrite size_cat size_iota => e; rewrite -{2}e addnK.
Qed.

(* the permuted row space *)
Definition permmx (n : nat) (p : seq nat) : 'M[F]_(n + n) := block_mx (selmx F n n p) 0 0 (selmx F n n p).

Lemma rv_permr n p (r : vec) : perm_eq p (iota 0 n) -> size r = (n + n)%N ->
  rv (n + n) (permr n p r) = rv (n + n) r *m permmx n p.
Proof.
move=> pe sr; have sp : size p = n by rewrite (perm_size pe) size_iota.
rewrite -[in RHS](cat_take_drop n r) /permr !rv_cat ?size_vsel ?half_take //.
rewrite /permmx mul_row_block !mulmx0 addr0 add0r; congr row_mx; apply/rowP => j; rewrite !mxE (nth_map 0%N) ?sp //.
  rewrite (bigD1 (Ordinal (perm_iota_lt pe (ltn_ord j)))) //= !mxE eqxx mulr1 big1 ?addr0 // => i ne.
  by rewrite !mxE (_ : (_ == _) = false) ?mulr0 //; apply: negbTE; move: ne; rewrite -val_eqE.
rewrite (bigD1 (Ordinal (perm_iota_lt pe (ltn_ord j)))) //= !mxE eqxx mulr1 big1 ?addr0 // => i ne.
by rewrite !mxE (_ : (_ == _) = false) ?mulr0 //; apply: negbTE; move: ne; rewrite -val_eqE.
Qed.

Lemma sp_permq n p (A : mat) : perm_eq p (iota 0 n) -> wf (n + n) A ->
  (sp (n + n) (permq n p A) :=: sp (n + n) A *m permmx n p)%MS.
Proof.
move=> pe wA; apply: eqmx_trans (sp_mx _ (size_permq n p A)) _.
suff -> : mx (size A) (n + n) (permq n p A) = sp (n + n) A *m permmx n p by [].
apply/row_matrixP => i; rewrite row_mul !row_of_mx (nth_map [::]) // -/(permr _ _ _) rv_permr //; exact: wf_nth.
Qed.

Lemma sp_permq_sub n p (A B : mat) : perm_eq p (iota 0 n) -> wf (n + n) A -> wf (n + n) B ->
  (sp (n + n) A <= sp (n + n) B)%MS -> (sp (n + n) (permq n p A) <= sp (n + n) (permq n p B))%MS.
Proof. by move=> pe wA wB h; rewrite !sp_permq // submxMr. Qed.

Lemma sp_permq_eq n p (A B : mat) : perm_eq p (iota 0 n) -> wf (n + n) A -> wf (n + n) B ->
  (sp (n + n) A :=: sp (n + n) B)%MS -> (sp (n + n) (permq n p A) :=: sp (n + n) (permq n p B))%MS.
Proof. by move=> pe wA wB h; apply/eqmxP; rewrite !sp_permq_sub // h. Qed.

Lemma commuting_permq n p (A : mat) : perm_eq p (iota 0 n) -> wf (n + n) A -> commuting n A ->
  commuting n (permq n p A).
Proof.
move=> pe /wfP wA cA u v /mapP [u' uA ->] /mapP [v' vA ->].
by rewrite -/(permr _ _ _) -/(permr n p v') symp_permr ?wA //; apply: cA.
Qed.

Lemma comm_eqmx n (A B C D : mat) : wf (n + n) A -> wf (n + n) B -> wf (n + n) C -> wf (n + n) D ->
  (sp (n + n) C <= sp (n + n) A)%MS -> (sp (n + n) D <= sp (n + n) B)%MS ->
  (forall u v, u \in A -> v \in B -> symp n u v = 0) -> (forall u v, u \in C -> v \in D -> symp n u v = 0).
Proof.
move=> wA wB wC wD hC hD /(commP wA wB) /scompP hAB; apply/(commP wC wD)/scompP.
by apply: submx_trans hD _; apply: submx_trans hAB (scomp_anti hC).
Qed.
End Perm.
