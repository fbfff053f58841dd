(* Matrices over a group algebra and lifted product codes: model of qldpc/abstract.py:717-885 (RingArray) and
   qldpc/codes/quantum.py:741-758, 928-936, 964-1070 (LPCode, SLPCode). *)
From mathcomp Require Import all_ssreflect all_algebra zify.
From mathcomp Require Import mxtens.
From Verif Require Import LinAlg RowReduce Kron Classical ClassicalProofs ClassicalProofs2 Symplectic Quantum QuantumProofs QuantumOps.
From Verif Require Import Css CssForm CssLogs CssProofs CssGauge Product PermGroup Abelian GroupRing.
Set Implicit Arguments.
Unset Strict Implicit.
Unset Printing Implicit Defensive.
Import GRing.Theory.
Local Open Scope ring_scope.

(* ============================================================================== model *)
Section Model.
Variable F : fieldType.
Notation rmem := (rmem F).

(* abstract.py:717-742: a RingArray with two axes is the list of its rows; all entries belong to the same ring *)
Definition rarr := seq (seq rmem).
Definition rent (M : rarr) (i j : nat) : rmem := nth [::] (nth [::] M i) j.
Definition rmk (m n : nat) (f : nat -> nat -> rmem) : rarr := mkseq (fun i => mkseq (f i) n) m.

(* np.block(blocks), for rows of square blocks of size d *)
Definition block_row (d : nat) (bs : seq (mat F)) : mat F := foldr (@hcat F) (nseq d [::]) bs.
Definition block (d : nat) (bss : seq (seq (mat F))) : mat F := flatten [seq block_row d bs | bs <- bss].
(* abstract.py:805-815: lift and regular_lift *)
Definition ra_lift (d : nat) (L : perm -> mat F) (M : rarr) : mat F := block d [seq [seq rm_lift d L x | x <- r] | r <- M].

(* abstract.py:817-825: ~self and self.T of an array with n columns *)
Definition ra_inv (M : rarr) : rarr := [seq [seq rm_T x | x <- r] | r <- M].
Definition ra_transpose (n : nat) (M : rarr) : rarr := rmk n (size M) (fun i j => rent M j i).
Definition ra_T (n : nat) (M : rarr) : rarr := ra_transpose n (ra_inv M).

(* abstract.py:776-792: self @ other for arrays of m x n and n x p entries; NumPy adds up the products of the entries *)
Definition rdot (u v : seq rmem) : rmem :=
  if [seq rm_mul p.1 p.2 | p <- zip u v] is x :: xs then foldl (@rm_add F) x xs else [::].
Definition ra_mul (p : nat) (A B : rarr) : rarr := [seq [seq rdot r c | c <- ra_transpose p B] | r <- A].

(* np.kron(A, np.eye(k, dtype=int)) and np.kron(np.eye(k, dtype=int), A) for an array with n columns: the entries get
   multiplied by the integers 0 and 1 *)
Definition kron_eye (n k : nat) (A : rarr) : rarr :=
  rmk (size A * k) (n * k) (fun i j => rm_scale (rent A (i %/ k) (j %/ k)) (i %% k == j %% k)%N).
Definition eye_kron (n k : nat) (A : rarr) : rarr :=
  rmk (k * size A) (k * n) (fun i j => rm_scale (rent A (i %% size A) (j %% n)) (i %/ size A == j %/ n)%N).
Definition ra_neg (A : rarr) : rarr := [seq [seq rm_neg x | x <- r] | r <- A].
Definition ra_hcat (A B : rarr) : rarr := [seq p.1 ++ p.2 | p <- zip A B].

(* quantum.py:741-758: HGPCode.get_matrix_product of two RingArrays with n1 and n2 columns *)
Definition lp_x (n1 n2 : nat) (A B : rarr) : rarr := ra_hcat (kron_eye n1 n2 A) (eye_kron (size B) (size A) (ra_T n2 B)).
Definition lp_z (n1 n2 : nat) (A B : rarr) : rarr := ra_hcat (ra_neg (eye_kron n2 n1 B)) (kron_eye (size A) (size B) (ra_T n1 A)).
(* quantum.py:928-936: SHPCode.get_matrix_product *)
Definition slp_x (n1 n2 : nat) (A B : rarr) : rarr := kron_eye n1 n2 A.
Definition slp_z (n1 n2 : nat) (A B : rarr) : rarr := eye_kron n2 n1 B.

(* quantum.py:991-1016: LPCode(matrix_a, matrix_b) over a group with the lift L of dimension d *)
Definition lp_len (d n1 n2 m1 m2 : nat) : nat := ((n1 * n2 + m1 * m2) * d)%N.
Definition lp_code (d : nat) (L : perm -> mat F) (n1 n2 : nat) (A B : rarr) : csscode F :=
  mkcss (lp_len d n1 n2 (size A) (size B)) (ra_lift d L (lp_x n1 n2 A B)) (ra_lift d L (lp_z n1 n2 A B)) (Some false).
(* quantum.py:1053-1070: SLPCode(matrix_a, matrix_b) *)
Definition slp_code (d : nat) (L : perm -> mat F) (n1 n2 : nat) (A B : rarr) : csscode F :=
  mkcss (n1 * n2 * d) (ra_lift d L (slp_x n1 n2 A B)) (ra_lift d L (slp_z n1 n2 A B)) (Some true).
End Model.

(* ============================================================================= proofs *)
Definition rwf (F : fieldType) (G : group) (n : nat) (M : rarr F) : bool :=
  all (fun r => (size r == n) && all (rm_ok G) r) M.

Lemma big_tensV (V : zmodType) m n (f : 'I_(m * n) -> V) :
  \sum_(k < m * n) f k = \sum_(i < m) \sum_(j < n) f (mxtens_index (i, j)).
Proof.
rewrite pair_big /=; apply: (reindex (fun p : 'I_m * 'I_n => mxtens_index (p.1, p.2))).
exists (@mxtens_unindex m n) => [[i j] _ | k _]; first exact: mxtens_indexK.
by rewrite -surjective_pairing mxtens_unindexK.
Qed.

Section Shape.
Variable F : fieldType.
Implicit Types (M A B : rarr F).

Lemma size_rmk m n f : size (rmk m n f : rarr F) = m. Proof. by rewrite size_mkseq. Qed.
Lemma rent_rmk m n f i j : (i < m)%N -> (j < n)%N -> rent (rmk m n f : rarr F) i j = f i j.
Proof. by move=> hi hj; rewrite /rent nth_mkseq // nth_mkseq. Qed.

Lemma block_rowP d n (bs : seq (mat F)) : size bs = n -> (forall b, b \in bs -> size b = d /\ wf d b) ->
  [/\ size (block_row d bs) = d, wf (n * d) (block_row d bs) &
    forall i j, (i < d)%N -> (j < n * d)%N -> ent (block_row d bs) i j = ent (nth [::] bs (j %/ d)) i (j %% d)].
Proof.
elim: bs n => [|b bs IH] n <- h.
  by split=> [||i j]; rewrite ?size_nseq // mul0n ?ltn0 //; apply/wfP => r /nseqP [-> _].
have [sb wb] := h b (mem_head _ _); have [s1 w1 e1] := IH _ erefl (fun c hc => h c (mem_behead (s := b :: bs) hc)).
rewrite /= -/(block_row d bs); split; rewrite ?size_hcat ?sb ?s1 ?mulSn //; first exact: wf_hcat.
move=> i j hi hj; have d0 : (0 < d)%N by apply: leq_ltn_trans hi.
rewrite (ent_hcat _ wb) ?sb ?s1 //; case: ltnP => hjd; first by rewrite divn_small // modn_small.
rewrite e1 //; last by rewrite ltn_subLR.
have -> : (j %/ d = ((j - d) %/ d).+1)%N by rewrite -{1}(subnK hjd) divnDr // divnn d0 addn1.
have -> : (j %% d = (j - d) %% d)%N by rewrite -{1}(subnK hjd) modnDr.
by [].
Qed.

Lemma blockP d m n (bss : seq (seq (mat F))) : size bss = m ->
  (forall bs, bs \in bss -> size bs = n /\ forall b, b \in bs -> size b = d /\ wf d b) ->
  [/\ size (block d bss) = (m * d)%N, wf (n * d) (block d bss) &
    forall i j, (i < m * d)%N -> (j < n * d)%N ->
      ent (block d bss) i j = ent (nth [::] (nth [::] bss (i %/ d)) (j %/ d)) (i %% d) (j %% d)].
Proof.
elim: bss m => [|bs bss IH] m <- h; first by split=> // i j; rewrite mul0n.
have [sb hb] := h bs (mem_head _ _); have [s1 w1 e1] := IH _ erefl (fun c hc => h c (mem_behead (s := bs :: bss) hc)).
have [s2 w2 e2] := block_rowP sb hb.
rewrite /block /= -/(block d bss); split; rewrite ?size_cat ?s1 ?s2 ?mulSn ?wf_cat ?w1 ?w2 // => i j hi hj.
have d0 : (0 < d)%N by move: hj; case: (d) => //; rewrite muln0.
rewrite ent_cat s2; case: ltnP => hid; first by rewrite divn_small // modn_small // e2.
rewrite e1 //; last by rewrite ltn_subLR.
have -> : (i %/ d = ((i - d) %/ d).+1)%N by rewrite -{1}(subnK hid) divnDr // divnn d0 addn1.
have -> : (i %% d = (i - d) %% d)%N by rewrite -{1}(subnK hid) modnDr.
by [].
Qed.
End Shape.

Section Lift.
Variable F : fieldType.
Variables (G : group) (n : nat).
Hypothesis gG : grp_ok n G.
Notation rmem := (rmem F).
Notation rarr := (rarr F).
Implicit Types (M A B : rarr) (x y : rmem).
Notation ok := (@rm_ok F G).
Notation rwf := (rwf G).

Lemma rwfP nc M i j : rwf nc M -> (i < size M)%N -> (j < nc)%N -> ok (rent M i j).
Proof.
move=> /allP h hi hj; have /andP [/eqP sr /allP hr] := h _ (mem_nth [::] hi).
by apply: hr; apply: mem_nth; rewrite sr.
Qed.
Lemma rwf_size nc M i : rwf nc M -> (i < size M)%N -> size (nth [::] M i) = nc.
Proof. by move=> /allP h hi; have /andP [/eqP] := h _ (mem_nth [::] hi). Qed.
Lemma rwf_rmk m nc f : (forall i j, (i < m)%N -> (j < nc)%N -> ok (f i j)) -> rwf nc (rmk m nc f).
Proof.
move=> h; apply/allP => r /mapP [i]; rewrite mem_iota add0n => /andP [_ hi] ->; rewrite size_mkseq eqxx /=.
by apply/allP => x /mapP [j]; rewrite mem_iota add0n => /andP [_ hj] ->; apply: h.
Qed.

Lemma rwf_inv nc M : rwf nc M -> rwf nc (ra_inv M).
Proof.
move=> /allP h; apply/allP => r /mapP [s sM ->]; have /andP [/eqP sr /allP hr] := h _ sM; rewrite size_map sr eqxx /=.
by apply/allP => x /mapP [y ys ->]; apply: (ok_T gG); apply: hr.
Qed.
Lemma size_inv M : size (ra_inv M) = size M. Proof. by rewrite size_map. Qed.
Lemma rent_inv nc M i j : rwf nc M -> (i < size M)%N -> (j < nc)%N -> rent (ra_inv M) i j = rm_T (rent M i j).
Proof. by move=> w hi hj; rewrite /rent (nth_map [::]) // (nth_map [::]) // (rwf_size w). Qed.

Lemma size_T nc M : size (ra_T nc M) = nc. Proof. by rewrite size_mkseq. Qed.
Lemma rent_T nc M i j : rwf nc M -> (i < nc)%N -> (j < size M)%N -> rent (ra_T nc M) i j = rm_T (rent M j i).
Proof. by move=> w hi hj; rewrite /ra_T rent_rmk ?size_inv // (rent_inv w). Qed.
Lemma rwf_T nc M : rwf nc M -> rwf (size M) (ra_T nc M).
Proof.
move=> w; rewrite -{1}(size_inv M); apply: rwf_rmk => i j hi; rewrite size_inv => hj.
by rewrite (rent_inv w) //; apply: (ok_T gG); apply: (rwfP w).
Qed.

Lemma size_ra_neg M : size (ra_neg M) = size M. Proof. by rewrite size_map. Qed.
Lemma rent_neg nc M i j : rwf nc M -> (i < size M)%N -> (j < nc)%N -> rent (ra_neg M) i j = rm_neg (rent M i j).
Proof. by move=> w hi hj; rewrite /rent (nth_map [::]) // (nth_map [::]) // (rwf_size w). Qed.
Lemma rwf_neg nc M : rwf nc M -> rwf nc (ra_neg M).
Proof.
move=> /allP h; apply/allP => r /mapP [s sM ->]; have /andP [/eqP sr /allP hr] := h _ sM; rewrite size_map sr eqxx /=.
by apply/allP => x /mapP [y ys ->]; apply: (ok_neg); apply: hr.
Qed.

Lemma size_ra_hcat A B : size A = size B -> size (ra_hcat A B) = size A.
Proof. by move=> e; rewrite size_map size_zip e minnn. Qed.
Lemma rwf_hcat p q A B : rwf p A -> rwf q B -> rwf (p + q) (ra_hcat A B).
Proof.
move=> /allP hA /allP hB; apply/allP => r /mapP [[s t] /mem_zip_l /andP [/= sA tB] ->] /=.
have /andP [/eqP s1 h1] := hA _ sA; have /andP [/eqP s2 h2] := hB _ tB.
by rewrite size_cat s1 s2 eqxx /= all_cat h1.
Qed.
Lemma rent_hcat p A B i j : rwf p A -> size A = size B -> (i < size A)%N ->
  rent (ra_hcat A B) i j = if (j < p)%N then rent A i j else rent B i (j - p).
Proof.
move=> w e hi; rewrite /rent (nth_map ([::], [::])) ?size_zip ?e ?minnn -?e //.
by rewrite nth_zip //= nth_cat (rwf_size w).
Qed.

Lemma size_kron_eye nc k A : size (kron_eye nc k A) = (size A * k)%N. Proof. exact: size_rmk. Qed.
Lemma size_eye_kron nc k A : size (eye_kron nc k A) = (k * size A)%N. Proof. exact: size_rmk. Qed.
Lemma divk_lt i a k : (i < a * k -> i %/ k < a)%N.
Proof. by case: k => [|k]; rewrite ?muln0 // ltn_divLR. Qed.
Lemma modk_lt i a k : (i < a * k -> i %% k < k)%N.
Proof. by case: k => [|k]; rewrite ?muln0 // ltn_pmod. Qed.
Lemma rwf_kron_eye nc k A : rwf nc A -> rwf (nc * k) (kron_eye nc k A).
Proof. by move=> w; apply: rwf_rmk => i j hi hj; apply: ok_scale; apply: (rwfP w); apply: divk_lt. Qed.
Lemma rwf_eye_kron nc k A : rwf nc A -> rwf (k * nc) (eye_kron nc k A).
Proof. by move=> w; apply: rwf_rmk => i j hi hj; apply: ok_scale; apply: (rwfP w); apply: modk_lt; eauto. Qed.

Lemma rent_kron_eye nc k A m (i1 : 'I_m) (i2 : 'I_k) (j1 : 'I_nc) (j2 : 'I_k) : size A = m ->
  rent (kron_eye nc k A) (mxtens_index (i1, i2)) (mxtens_index (j1, j2)) = rm_scale (rent A i1 j1) (i2 == j2).
Proof.
move=> sA; rewrite /kron_eye sA rent_rmk //= ?(mxtens_index_proof (i1, i2)) ?(mxtens_index_proof (j1, j2)) //.
have k0 : (0 < k)%N by apply: leq_ltn_trans (ltn_ord i2).
by rewrite !divnMDl // !divn_small // !addn0 !modnMDl !modn_small.
Qed.
Lemma rent_eye_kron nc k A m (i1 : 'I_k) (i2 : 'I_m) (j1 : 'I_k) (j2 : 'I_nc) : size A = m ->
  rent (eye_kron nc k A) (mxtens_index (i1, i2)) (mxtens_index (j1, j2)) = rm_scale (rent A i2 j2) (i1 == j1).
Proof.
move=> sA; rewrite /eye_kron sA rent_rmk //= ?(mxtens_index_proof (i1, i2)) ?(mxtens_index_proof (j1, j2)) //.
have m0 : (0 < m)%N by apply: leq_ltn_trans (ltn_ord i2).
have n0 : (0 < nc)%N by apply: leq_ltn_trans (ltn_ord j2).
by rewrite !modnMDl !modn_small // !divnMDl // !divn_small // !addn0.
Qed.

(* ---- lifts as block matrices *)
Variables (d : nat) (L : perm -> mat F).
Hypothesis rep : is_rep n d G L.
Notation lift := (rm_lift d L).
Definition bl M (i j : nat) : 'M[F]_d := mx d d (lift (rent M i j)).

Lemma ra_liftP m nc M : rwf nc M -> size M = m -> [/\ size (ra_lift d L M) = (m * d)%N, wf (nc * d) (ra_lift d L M) &
  forall (i : 'I_m) (k : 'I_d) (j : 'I_nc) (l : 'I_d),
    mx (m * d) (nc * d) (ra_lift d L M) (mxtens_index (i, k)) (mxtens_index (j, l)) = bl M i j k l].
Proof.
move=> w sM; have := @blockP F d m nc [seq [seq lift x | x <- r] | r <- M].
rewrite size_map => /(_ sM); case.
  move=> bs /mapP [r rM ->]; have /andP [/eqP sr /allP hr] := allP w _ rM; rewrite size_map; split=> // b /mapP [x xr ->].
  by have [] := lift_ok gG rep (hr x xr).
move=> h1 h2 h3; split=> // i k j l; rewrite /bl !mxE h3 ?(mxtens_index_proof (i, k)) ?(mxtens_index_proof (j, l)) //=.
have d0 : (0 < d)%N by apply: leq_ltn_trans (ltn_ord k).
rewrite !divnMDl // !modnMDl !divn_small // !modn_small // !addn0 (nth_map [::]) ?sM //.
by rewrite (nth_map [::]) // (rwf_size w) // sM.
Qed.

(* the rows of the lifts of X and Z are orthogonal when their blocks are *)
Lemma lift_mulT mX mZ nc X Z : rwf nc X -> rwf nc Z -> size X = mX -> size Z = mZ ->
  (mx (mX * d) (nc * d) (ra_lift d L X) *m (mx (mZ * d) (nc * d) (ra_lift d L Z))^T = 0) <->
  (forall (i : 'I_mX) (k : 'I_mZ), \sum_(c < nc) bl X i c *m (bl Z k c)^T = 0).
Proof.
move=> wX wZ sX sZ; have [_ _ eX] := ra_liftP wX sX; have [_ _ eZ] := ra_liftP wZ sZ.
have e i k r t : (mx (mX * d) (nc * d) (ra_lift d L X) *m (mx (mZ * d) (nc * d) (ra_lift d L Z))^T)
    (mxtens_index (i, r)) (mxtens_index (k, t)) = (\sum_(c < nc) bl X i c *m (bl Z k c)^T) r t.
  rewrite mxE big_tens summxE; apply: eq_bigr => c _; rewrite mxE; apply: eq_bigr => u _.
  rewrite eX; congr (_ * _); rewrite [LHS]mxE [RHS]mxE; exact: eZ.
split=> [h i k | h]; first by apply/matrixP => r t; rewrite -e h !mxE.
by apply/matrixP => a b; case: (mxtens_indexP a) => i r; case: (mxtens_indexP b) => k t; rewrite e h !mxE.
Qed.

Lemma bl_hcat_l p q A B i (j : 'I_p) : rwf p A -> size A = size B -> (i < size A)%N ->
  bl (ra_hcat A B) i (lshift q j) = bl A i j.
Proof. by move=> w e hi; rewrite /bl (rent_hcat _ w) //= ltn_ord. Qed.
Lemma bl_hcat_r p q A B i (j : 'I_q) : rwf p A -> size A = size B -> (i < size A)%N ->
  bl (ra_hcat A B) i (rshift p j) = bl B i j.
Proof. by move=> w e hi; rewrite /bl (rent_hcat _ w) //= ltnNge leq_addr /= addKn. Qed.
Lemma bl_kron_eye nc k A m (i1 : 'I_m) (i2 : 'I_k) (j1 : 'I_nc) (j2 : 'I_k) : rwf nc A -> size A = m ->
  bl (kron_eye nc k A) (mxtens_index (i1, i2)) (mxtens_index (j1, j2)) = (i2 == j2)%:R *: bl A i1 j1.
Proof.
by move=> w sA; rewrite /bl (rent_kron_eye _ _ _ _ sA) (lift_scale gG rep) ?pmulrn //; apply: (rwfP w); rewrite ?sA.
Qed.
Lemma bl_eye_kron nc k A m (i1 : 'I_k) (i2 : 'I_m) (j1 : 'I_k) (j2 : 'I_nc) : rwf nc A -> size A = m ->
  bl (eye_kron nc k A) (mxtens_index (i1, i2)) (mxtens_index (j1, j2)) = (i1 == j1)%:R *: bl A i2 j2.
Proof.
by move=> w sA; rewrite /bl (rent_eye_kron _ _ _ _ sA) (lift_scale gG rep) ?pmulrn //; apply: (rwfP w); rewrite ?sA.
Qed.
Lemma bl_neg nc A i j : rwf nc A -> (i < size A)%N -> (j < nc)%N -> bl (ra_neg A) i j = - bl A i j.
Proof. by move=> w hi hj; rewrite /bl (rent_neg w) // (lift_neg gG rep) //; apply: (rwfP w). Qed.
Lemma bl_T nc A i j : rwf nc A -> (i < nc)%N -> (j < size A)%N -> bl (ra_T nc A) i j = (bl A j i)^T.
Proof. by move=> w hi hj; rewrite /bl (rent_T w) // (lift_T gG rep) //; apply: (rwfP w). Qed.

Lemma delta_sum (V : lmodType F) k (f : 'I_k -> V) (i : 'I_k) : \sum_(j < k) (i == j)%:R *: f j = f i.
Proof.
rewrite (bigD1 i) //= eqxx scale1r big1 ?addr0 // => j; rewrite eq_sym => /negbTE ->; exact: scale0r.
Qed.

(* ---- lifted products *)
Section LP.
Variables (n1 n2 m1 m2 : nat) (A B : rarr).
Hypotheses (wA : rwf n1 A) (wB : rwf n2 B) (sA : size A = m1) (sB : size B = m2).

Lemma lp_x_wf : size (lp_x n1 n2 A B) = (m1 * n2)%N /\ rwf (n1 * n2 + m1 * m2) (lp_x n1 n2 A B).
Proof.
rewrite /lp_x; split; first by rewrite size_ra_hcat ?size_kron_eye ?size_eye_kron ?size_T sA.
apply: rwf_hcat; first exact: rwf_kron_eye.
by rewrite sA sB; apply: rwf_eye_kron; rewrite -sB; apply: rwf_T.
Qed.
Lemma lp_z_wf : size (lp_z n1 n2 A B) = (n1 * m2)%N /\ rwf (n1 * n2 + m1 * m2) (lp_z n1 n2 A B).
Proof.
rewrite /lp_z; split; first by rewrite size_ra_hcat size_ra_neg ?size_kron_eye size_eye_kron ?size_T sB.
apply: rwf_hcat; first by apply: rwf_neg; apply: rwf_eye_kron.
by rewrite sA sB; apply: rwf_kron_eye; rewrite -sA; apply: rwf_T.
Qed.

Lemma lp_orth (i : 'I_m1) (j : 'I_n2) (k : 'I_n1) (l : 'I_m2) :
  \sum_(c < n1 * n2 + m1 * m2) bl (lp_x n1 n2 A B) (mxtens_index (i, j)) c *m (bl (lp_z n1 n2 A B) (mxtens_index (k, l)) c)^T =
  (bl B l j)^T *m bl A i k - bl A i k *m (bl B l j)^T.
Proof.
have wAk := rwf_kron_eye n2 wA; have wBk := rwf_eye_kron n1 wB.
have wAT := rwf_T wA; have wBT := rwf_T wB; rewrite sA in wAT; rewrite sB in wBT.
have hx : (mxtens_index (i, j) < size (kron_eye n1 n2 A))%N by rewrite size_kron_eye sA (mxtens_index_proof (i, j)).
have hz : (mxtens_index (k, l) < size (eye_kron n2 n1 B))%N by rewrite size_eye_kron sB (mxtens_index_proof (k, l)).
have ex : size (kron_eye n1 n2 A) = size (eye_kron (size B) (size A) (ra_T n2 B)).
  by rewrite size_kron_eye size_eye_kron size_T.
have ez : size (eye_kron n2 n1 B) = size (kron_eye (size A) (size B) (ra_T n1 A)).
  by rewrite size_kron_eye size_eye_kron size_T.
rewrite big_split_ord [RHS]addrC; congr (_ + _); last first.
  rewrite big_tensV.
  transitivity (\sum_(c < m1) (i == c)%:R *: ((bl B l j)^T *m bl A c k)); last by rewrite delta_sum.
  apply: eq_bigr => c _.
  transitivity (\sum_(e < m2) (l == e)%:R *: ((i == c)%:R *: ((bl B e j)^T *m bl A c k))); last by rewrite delta_sum.
  apply: eq_bigr => e _; rewrite (bl_hcat_r _ wAk) // (bl_hcat_r _ (rwf_neg wBk)) ?size_ra_neg //.
  rewrite sA sB (bl_eye_kron _ _ _ _ wBT) ?size_T // (bl_kron_eye _ _ _ _ wAT) ?size_T //.
  rewrite (bl_T wB) ?sB // (bl_T wA) ?sA //.
  by rewrite linearZ /= trmxK -scalemxAl -scalemxAr scalerA mulrC -scalerA.
rewrite big_tensV.
transitivity (\sum_(a < n1) (k == a)%:R *: - (bl A i a *m (bl B l j)^T)); last by rewrite delta_sum.
apply: eq_bigr => a _.
transitivity (\sum_(b < n2) (j == b)%:R *: ((k == a)%:R *: - (bl A i a *m (bl B l b)^T))); last by rewrite delta_sum.
apply: eq_bigr => b _; rewrite (bl_hcat_l _ _ wAk) // (bl_hcat_l _ _ (rwf_neg wBk)) ?size_ra_neg //.
rewrite (bl_kron_eye _ _ _ _ wA) // (bl_neg wBk) ?(mxtens_index_proof (a, b)) // (bl_eye_kron _ _ _ _ wB) //.
by rewrite linearN /= linearZ /= mulmxN -scalemxAl -scalemxAr !scalerN.
Qed.

(* the checks of the lifted product are orthogonal exactly when the lifted entries of A commute with those of B^T *)
Lemma lp_orthP :
  (mx (m1 * n2 * d) ((n1 * n2 + m1 * m2) * d) (ra_lift d L (lp_x n1 n2 A B)) *m
   (mx (n1 * m2 * d) ((n1 * n2 + m1 * m2) * d) (ra_lift d L (lp_z n1 n2 A B)))^T = 0) <->
  (forall (i : 'I_m1) (j : 'I_n2) (k : 'I_n1) (l : 'I_m2), (bl B l j)^T *m bl A i k = bl A i k *m (bl B l j)^T).
Proof.
have [sx wx] := lp_x_wf; have [sz wz] := lp_z_wf.
split=> [/(lift_mulT wx wz sx sz) h i j k l | h].
  by apply/eqP; rewrite -subr_eq0 -lp_orth h.
apply/(lift_mulT wx wz sx sz) => a b; case: (mxtens_indexP a) => i j; case: (mxtens_indexP b) => k l.
by rewrite lp_orth h subrr.
Qed.
End LP.

(* over a commutative group *)
Lemma lift_comm x y : {in G &, forall p q, pmul p q = pmul q p} -> ok x -> ok y ->
  mx d d (lift x) *m mx d d (lift y) = mx d d (lift y) *m mx d d (lift x).
Proof.
move=> cm ox oy; have [_ hm _ _] := is_repE rep; rewrite !(mx_lift gG rep) // !mulmx_suml.
under eq_bigr => g _ do rewrite mulmx_sumr; rewrite exchange_big /= big_seq [RHS]big_seq; apply: eq_bigr => g gg.
rewrite mulmx_sumr big_seq [RHS]big_seq; apply: eq_bigr => h hh.
by rewrite -!scalemxAl -!scalemxAr -!hm // cm // !scalerA mulrC.
Qed.
End Lift.

Lemma sp_mul0V (F : fieldType) k m p (X W : mat F) : size X = m -> size W = p -> sp k X *m (sp k W)^T = 0 -> mx m k X *m (mx p k W)^T = 0.
Proof. by move=> <- <-. Qed.

Section Codes.
Variable F : fieldType.
Variables (G : group) (n : nat).
Hypothesis gG : grp_ok n G.
Variables (d : nat) (L : perm -> mat F).
Hypothesis rep : is_rep n d G L.

(* without commutativity: the checks commute exactly when the lifts of the entries of A and B^T do *)
Theorem lp_ok_iff n1 n2 (A B : rarr F) : rwf G n1 A -> rwf G n2 B ->
  c_ok (lp_code d L n1 n2 A B) <->
  (forall i j k l, (i < size A)%N -> (k < n1)%N -> (l < size B)%N -> (j < n2)%N ->
     mx d d (rm_lift d L (rm_mul (rm_T (rent B l j)) (rent A i k))) = mx d d (rm_lift d L (rm_mul (rent A i k) (rm_T (rent B l j))))).
Proof.
move=> wA wB; have [sx wx] := lp_x_wf gG wA wB erefl erefl; have [sz wz] := lp_z_wf gG wA wB erefl erefl.
have [s1 w1 _] := ra_liftP gG rep wx sx; have [s2 w2 _] := ra_liftP gG rep wz sz.
have eq i j k l : (i < size A)%N -> (k < n1)%N -> (l < size B)%N -> (j < n2)%N ->
    (mx d d (rm_lift d L (rm_mul (rm_T (rent B l j)) (rent A i k))) = mx d d (rm_lift d L (rm_mul (rent A i k) (rm_T (rent B l j))))) <->
    ((bl d L B l j)^T *m bl d L A i k = bl d L A i k *m (bl d L B l j)^T).
  move=> hi hk hl hj; have oA := rwfP wA hi hk; have oB := rwfP wB hl hj; have oT := ok_T gG oB.
  by rewrite !(lift_mul gG rep) // (lift_T gG rep oB).
split=> [[[_ /(_ erefl) h _ _ _] _ _ _ _] i j k l hi hk hl hj | h].
  apply/(eq i j k l hi hk hl hj).
  have h0 := proj1 (css_commP w1 w2) h.
  have h1 := sp_mul0V s1 s2 h0.
  exact: (proj1 (lp_orthP gG rep wA wB erefl erefl) h1 (Ordinal hi) (Ordinal hj) (Ordinal hk) (Ordinal hl)).
apply: c_ok_mk => // _; apply: (@sp_mul0 F _ (size A * n2 * d) (n1 * size B * d)) => //.
apply/(lp_orthP gG rep wA wB) => // i j k l; exact/(eq i j k l (ltn_ord i) (ltn_ord k) (ltn_ord l) (ltn_ord j))/h.
Qed.

Theorem lp_ok n1 n2 (A B : rarr F) : {in G &, forall p q, pmul p q = pmul q p} -> rwf G n1 A -> rwf G n2 B ->
  c_ok (lp_code d L n1 n2 A B).
Proof.
move=> cm wA wB; apply/(lp_ok_iff wA wB) => i j k l hi hk hl hj.
have oA := rwfP wA hi hk; have oT := ok_T gG (rwfP wB hl hj).
by rewrite !(lift_mul gG rep) //; apply: (lift_comm gG rep cm).
Qed.

Theorem slp_ok n1 n2 (A B : rarr F) : rwf G n1 A -> rwf G n2 B -> c_ok (slp_code d L n1 n2 A B).
Proof.
move=> wA wB; have [_ w1 _] := ra_liftP gG rep (rwf_kron_eye n2 wA) erefl.
by have [_ w2 _] := ra_liftP gG rep (rwf_eye_kron n1 wB) erefl; apply: c_ok_mk.
Qed.

(* quantum.py:973-977: arrays with one entry give a two-block code, up to the sign of the Z-type checks *)
Lemma hcat_nil (B : mat F) k : size B = k -> hcat B (nseq k [::]) = B.
Proof. by move=> <-; elim: B => //= r B IH; rewrite /hcat /= cats0 -/(hcat B (nseq (size B) [::])) IH. Qed.
Lemma hcat_opp (A B : mat F) : hcat (mopp A) (mopp B) = mopp (hcat A B).
Proof. by elim: A B => [|r A IH] [|s B] //=; rewrite /hcat /= -/(hcat _ _) IH /vopp map_cat. Qed.
Lemma moppK (A : mat F) : mopp (mopp A) = A.
Proof. by elim: A => //= r A ->; congr (_ :: _); rewrite /vopp -map_comp map_id_in // => x _ /=; apply: opprK. Qed.
Lemma lift_mat_eq x y : rm_ok G x -> rm_ok G y -> mx d d (rm_lift d L x) = mx d d (rm_lift d L y) -> rm_lift d L x = rm_lift d L y.
Proof. by move=> /(lift_ok gG rep) [s1 w1 _] /(lift_ok gG rep) [s2 w2 _]; apply: mx_inj. Qed.
Lemma lift1 x : rm_ok G x -> rm_lift d L (rm_scale x 1) = rm_lift d L x.
Proof. by move=> ox; apply: lift_mat_eq; rewrite ?ok_scale // (lift_scale gG rep) // scale1r. Qed.
Lemma lift_opp x : rm_ok G x -> rm_lift d L (rm_neg x) = mopp (rm_lift d L x).
Proof.
move=> ox; have [s1 w1 _] := lift_ok gG rep ox; have [s2 w2 _] := lift_ok gG rep (ok_neg ox).
by apply: (@mx_inj _ d d); rewrite ?size_mopp ?wf_mopp // mx_mopp (lift_neg gG rep).
Qed.
Lemma lift_trl x : rm_ok G x -> rm_lift d L (rm_T x) = trl d (rm_lift d L x).
Proof.
move=> ox; have [s1 w1 _] := lift_ok gG rep ox; have [s2 w2 _] := lift_ok gG rep (ok_T gG ox).
have w3 : wf d (trl d (rm_lift d L x)) by rewrite -{1}s1 wf_trl.
by apply: (@mx_inj _ d d); rewrite ?size_trl // (mx_trl _ (m := d)) // (lift_T gG rep).
Qed.

Theorem lp_two_block a b : rm_ok G a -> rm_ok G b ->
  exists2 c, tb_code d d (rm_lift d L a) (trl d (rm_lift d L b)) false = Some c &
    (c_n (lp_code d L 1 1 [:: [:: a]] [:: [:: b]]), c_x (lp_code d L 1 1 [:: [:: a]] [:: [:: b]]),
     c_z (lp_code d L 1 1 [:: [:: a]] [:: [:: b]])) = (c_n c, c_x c, mopp (c_z c)).
Proof.
move=> oa ob; have [s1 w1 _] := lift_ok gG rep oa; have [s2 w2 _] := lift_ok gG rep ob.
have oTa := ok_T gG oa; have oTb := ok_T gG ob.
rewrite /tb_code size_trl s1 !eqxx /=; eexists; first by [].
rewrite /lp_code /mkcss /=; congr (_, _, _); first by rewrite /lp_len; lia.
- rewrite /ra_lift /lp_x /kron_eye /eye_kron /ra_T /ra_inv /ra_transpose /rmk /rent /=.
  by rewrite /block /= cats0 hcat_nil ?lift1 // ?lift_trl ?size_trl.
- rewrite /ra_lift /lp_z /kron_eye /eye_kron /ra_T /ra_inv /ra_transpose /rmk /rent /=.
  rewrite /block /= cats0 hcat_nil ?lift1 // ?lift_opp ?ok_scale // ?lift1 // ?lift_trl ?size_trl // -hcat_opp moppK.
  have w3 : wf d (trl d (rm_lift d L b)) by rewrite -{1}s2 wf_trl.
  have w4 : wf d (trl d (trl d (rm_lift d L b))) by rewrite -{1}(size_trl d (rm_lift d L b)) wf_trl.
  congr hcat; congr mopp; apply: (@mx_inj _ d d); rewrite ?size_trl //.
  by rewrite !(mx_trl _ (m := d)) ?size_trl // trmxK.
Qed.

Lemma ent_lift nc M i j : rwf G nc M -> (i < size M * d)%N -> (j < nc * d)%N ->
  ent (ra_lift d L M) i j = ent (rm_lift d L (rent M (i %/ d) (j %/ d))) (i %% d) (j %% d).
Proof.
move=> w hi hj; have [_ _ e] := ra_liftP gG rep w erefl.
have d0 : (0 < d)%N by move: hj; case: (d) => //; rewrite muln0.
have h1 := divk_lt hi; have h2 := modk_lt hi; have h3 := divk_lt hj; have h4 := modk_lt hj.
have := e (Ordinal h1) (Ordinal h2) (Ordinal h3) (Ordinal h4); rewrite /bl !mxE /=.
by rewrite -!divn_eq.
Qed.
End Codes.

(* quantum.py:978-979: when the entries are lifted to 1 x 1 matrices, the lifted product is a hypergraph product *)
Section One.
Variable F : fieldType.
Variables (G : group) (n : nat).
Hypothesis gG : grp_ok n G.
Variables (L : perm -> mat F).
Hypothesis rep : is_rep n 1 G L.
Notation val x := (ent (rm_lift 1 L x) 0 0).

Lemma val_scale x (b : bool) : rm_ok G x -> val (rm_scale x b) = b%:R * val x.
Proof.
move=> ox; have := lift_scale gG rep b ox => /matrixP /(_ 0 0); rewrite !mxE /= => ->.
by rewrite pmulrn.
Qed.
Lemma val_neg x : rm_ok G x -> val (rm_neg x) = - val x.
Proof. by move=> ox; have := lift_neg gG rep ox => /matrixP /(_ 0 0); rewrite !mxE. Qed.
Lemma val_T x : rm_ok G x -> val (rm_T x) = val x.
Proof. by move=> ox; have := lift_T gG rep ox => /matrixP /(_ 0 0); rewrite !mxE. Qed.

Lemma lift1E nc M : rwf G nc M -> [/\ size (ra_lift 1 L M) = size M, wf nc (ra_lift 1 L M) &
  forall i j, (i < size M)%N -> (j < nc)%N -> ent (ra_lift 1 L M) i j = val (rent M i j)].
Proof.
move=> w; have [s1 w1 _] := ra_liftP gG rep w erefl; rewrite muln1 in s1; rewrite muln1 in w1; split=> // i j hi hj.
by rewrite (ent_lift gG rep w) ?muln1 // !divn1 !modn1.
Qed.

Lemma lift1_kron_eye nc k A : rwf G nc A -> ra_lift 1 L (kron_eye nc k A) = kron (ra_lift 1 L A) (idl F k).
Proof.
move=> w; have [s1 w1 e1] := lift1E w; have [s2 w2 e2] := lift1E (rwf_kron_eye k w).
rewrite size_kron_eye in s2 e2; apply: (@mat_ext _ (size A * k) (nc * k)); rewrite ?size_kron ?size_idl ?s1 ?wf_kron ?wf_idl // => i j hi hj.
rewrite e2 // (ent_kron (n := nc) (p := k)) ?wf_idl ?size_idl ?s1 // rent_rmk //.
have h1 := divk_lt hi; have h2 := modk_lt hi; have h3 := divk_lt hj; have h4 := modk_lt hj.
by rewrite val_scale ?(rwfP w) // e1 // ent_mkmat // mulrC.
Qed.
Lemma lift1_eye_kron nc k A : rwf G nc A -> ra_lift 1 L (eye_kron nc k A) = kron (idl F k) (ra_lift 1 L A).
Proof.
move=> w; have [s1 w1 e1] := lift1E w; have [s2 w2 e2] := lift1E (rwf_eye_kron k w).
rewrite size_eye_kron in s2 e2; apply: (@mat_ext _ (k * size A) (k * nc)); rewrite ?size_kron ?size_idl ?s1 ?wf_kron ?wf_idl // => i j hi hj.
rewrite e2 // (ent_kron (n := k) (p := nc)) ?wf_idl ?size_idl ?s1 // rent_rmk //.
have h1 := divk_lt hi; have h2 := modk_lt hi; have h3 := divk_lt hj; have h4 := modk_lt hj.
by rewrite val_scale ?(rwfP w) // e1 // ent_mkmat.
Qed.
Lemma lift1_T nc A : rwf G nc A -> ra_lift 1 L (ra_T nc A) = trl nc (ra_lift 1 L A).
Proof.
move=> w; have [s1 w1 e1] := lift1E w; have [s2 w2 e2] := lift1E (rwf_T gG w); rewrite size_T in s2 e2.
have w3 : wf (size A) (trl nc (ra_lift 1 L A)) by rewrite -{1}s1 wf_trl.
apply: (@mat_ext _ nc (size A)); rewrite ?size_trl // => i j hi hj.
by rewrite e2 // ent_trl ?s1 // e1 // (rent_T w) // val_T //; apply: (rwfP w).
Qed.
Lemma lift1_neg nc A : rwf G nc A -> ra_lift 1 L (ra_neg A) = mopp (ra_lift 1 L A).
Proof.
move=> w; have [s1 w1 e1] := lift1E w; have [s2 w2 e2] := lift1E (rwf_neg w); rewrite size_ra_neg in s2 e2.
apply: (@mat_ext _ (size A) nc); rewrite ?size_mopp ?wf_mopp // => i j hi hj.
by rewrite e2 // ent_mopp e1 // (rent_neg w) // val_neg //; apply: (rwfP w).
Qed.
Lemma lift1_hcat p q A B : rwf G p A -> rwf G q B -> size A = size B ->
  ra_lift 1 L (ra_hcat A B) = hcat (ra_lift 1 L A) (ra_lift 1 L B).
Proof.
move=> wA wB e; have [s1 w1 e1] := lift1E wA; have [s2 w2 e2] := lift1E wB; have [s3 w3 e3] := lift1E (rwf_hcat wA wB).
rewrite size_ra_hcat // in s3 e3; apply: (@mat_ext _ (size A) (p + q)); rewrite ?size_hcat ?s1 ?s2 ?wf_hcat // => i j hi hj.
rewrite e3 // (ent_hcat _ w1) ?s1 ?s2 // (rent_hcat _ wA) //; case: ltnP => h; first by rewrite e1.
by rewrite e2 ?ltn_subLR // -e.
Qed.

Theorem lp_hypergraph n1 n2 (A B : rarr F) : rwf G n1 A -> rwf G n2 B ->
  ra_lift 1 L (lp_x n1 n2 A B) = hgp_x n1 n2 (ra_lift 1 L A) (ra_lift 1 L B) /\
  ra_lift 1 L (lp_z n1 n2 A B) = hgp_z n1 n2 (ra_lift 1 L A) (ra_lift 1 L B).
Proof.
move=> wA wB; have [s1 _ _] := lift1E wA; have [s2 _ _] := lift1E wB.
have wAT := rwf_T gG wA; have wBT := rwf_T gG wB.
split; rewrite /lp_x /lp_z /hgp_x /hgp_z ?s1 ?s2.
  rewrite (lift1_hcat (rwf_kron_eye n2 wA) (rwf_eye_kron (size A) wBT)) ?size_kron_eye ?size_eye_kron ?size_T //.
  by rewrite (lift1_kron_eye _ wA) (lift1_eye_kron _ wBT) (lift1_T wB).
rewrite (lift1_hcat (rwf_neg (rwf_eye_kron n1 wB)) (rwf_kron_eye (size B) wAT)) ?size_ra_neg ?size_kron_eye ?size_eye_kron ?size_T //.
by rewrite (lift1_neg (rwf_eye_kron n1 wB)) (lift1_kron_eye _ wAT) (lift1_eye_kron _ wB) (lift1_T wA).
Qed.
End One.
