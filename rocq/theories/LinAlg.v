(* Executable arrays over a ring, as used by numpy/galois code in the repository, and the bridge to mathcomp matrices.

   numpy and galois are external to /repo.  The definitions here model the array operations that /repo calls:
   `@`, `.T`, `+`, `-`, np.vstack, np.hstack, np.block, np.kron, scipy.linalg.block_diag, np.eye, np.zeros, fancy indexing
   and slicing.  An array with m rows and n columns is a list of m rows of length n; since a list without rows does not
   remember n, the number of columns is an explicit argument of the functions that need it. *)
From mathcomp Require Import all_ssreflect all_algebra.
Set Implicit Arguments.
Unset Strict Implicit.
Unset Printing Implicit Defensive.
Import GRing.Theory.
Local Open Scope ring_scope.

Section Ops.
Variable R : ringType.

(* a 1-D array; external: numpy.ndarray *)
Definition vec := seq R.
(* a 2-D array; external: numpy.ndarray / galois.FieldArray *)
Definition mat := seq (seq R).

(* all rows have length n (array.shape[1] == n) *)
Definition wf (n : nat) (A : mat) : bool := all (fun r => size r == n) A.
(* the entry A[i, j] *)
Definition ent (A : mat) (i j : nat) : R := nth 0 (nth [::] A i) j.
(* np.array([[f(i,j) for j in range(n)] for i in range(m)]) *)
Definition mkmat (m n : nat) (f : nat -> nat -> R) : mat := mkseq (fun i => mkseq (fun j => f i j) n) m.

(* u + v, u - v, -u, a * u on 1-D arrays *)
Definition vadd (u v : vec) : vec := [seq p.1 + p.2 | p <- zip u v].
Definition vsub (u v : vec) : vec := [seq p.1 - p.2 | p <- zip u v].
Definition vopp (u : vec) : vec := [seq - x | x <- u].
Definition vscale (a : R) (u : vec) : vec := [seq a * x | x <- u].
(* u @ v on 1-D arrays *)
Definition dot (u v : vec) : R := foldr +%R 0 [seq p.1 * p.2 | p <- zip u v].
(* np.zeros(n), and the j-th row of np.eye(n) *)
Definition vzero (n : nat) : vec := nseq n 0.
Definition vunit (n j : nat) : vec := mkseq (fun k => (k == j)%:R) n.

(* A @ v *)
Definition mulmv (A : mat) (v : vec) : vec := [seq dot r v | r <- A].
(* A.T for an array with n columns *)
Definition trl (n : nat) (A : mat) : mat := mkseq (fun j => [seq nth 0 r j | r <- A]) n.
(* A @ B for B with p columns *)
Definition mull (p : nat) (A B : mat) : mat := [seq [seq dot r c | c <- trl p B] | r <- A].
(* A + B, A - B, -A, a * A *)
Definition madd (A B : mat) : mat := [seq vadd p.1 p.2 | p <- zip A B].
Definition msub (A B : mat) : mat := [seq vsub p.1 p.2 | p <- zip A B].
Definition mopp (A : mat) : mat := [seq vopp r | r <- A].
Definition mscale (a : R) (A : mat) : mat := [seq vscale a r | r <- A].
(* np.eye(n), np.zeros((m, n)) *)
Definition idl (n : nat) : mat := mkmat n n (fun i j => (i == j)%:R).
Definition zerol (m n : nat) : mat := nseq m (nseq n 0).
(* np.hstack([A, B]) ; np.vstack([A, B]) is list concatenation *)
Definition hcat (A B : mat) : mat := [seq p.1 ++ p.2 | p <- zip A B].
(* np.kron(A, B) *)
Definition vkron (u v : vec) : vec := flatten [seq [seq x * y | y <- v] | x <- u].
Definition kron (A B : mat) : mat := flatten [seq [seq vkron r s | s <- B] | r <- A].
(* scipy.linalg.block_diag(A, B) for A with n and B with p columns *)
Definition bdiag (n p : nat) (A B : mat) : mat := [seq r ++ nseq p 0 | r <- A] ++ [seq nseq n 0 ++ r | r <- B].
(* A[:, cols], A[rows] with index lists (fancy indexing) *)
Definition vsel (cols : seq nat) (r : vec) : vec := [seq nth 0 r j | j <- cols].
Definition selcols (cols : seq nat) (A : mat) : mat := [seq vsel cols r | r <- A].
Definition selrows (rows : seq nat) (A : mat) : mat := [seq nth [::] A i | i <- rows].
(* np.any(A) *)
Definition vany (u : vec) : bool := has (fun x => x != 0) u.
Definition many (A : mat) : bool := has vany A.

(* ------------------------------------------------------------------ bridge *)
Definition mx (m n : nat) (A : mat) : 'M[R]_(m, n) := \matrix_(i, j) ent A i j.
Definition rv (n : nat) (v : vec) : 'rV[R]_n := \row_j nth 0 v j.
Definition cv (n : nat) (v : vec) : 'cV[R]_n := \col_j nth 0 v j.

Lemma wfP n (A : mat) : reflect (forall r, r \in A -> size r = n) (wf n A).
Proof. by apply: (iffP allP) => h r /h; [move/eqP | move=> ->; rewrite eqxx]. Qed.

Lemma wf_nth n A i : wf n A -> (i < size A)%N -> size (nth [::] A i) = n.
Proof. by move=> /wfP h lt_i; apply: h; apply: mem_nth. Qed.

Lemma wf_cat n A B : wf n (A ++ B) = wf n A && wf n B.
Proof. by rewrite /wf all_cat. Qed.

Lemma wf_cons n r A : wf n (r :: A) = (size r == n) && wf n A.
Proof. by []. Qed.

Lemma mx_ent m n A (i : 'I_m) (j : 'I_n) : mx m n A i j = ent A i j.
Proof. by rewrite mxE. Qed.

Lemma row_of_mx m n A (i : 'I_m) : row i (mx m n A) = rv n (nth [::] A i).
Proof. by apply/rowP => j; rewrite !mxE. Qed.

Lemma ent_default_row A i j : (size A <= i)%N -> ent A i j = 0.
Proof. by move=> h; rewrite /ent (nth_default _ h) nth_nil. Qed.

Lemma ent_default_col n A i j : wf n A -> (n <= j)%N -> ent A i j = 0.
Proof.
move=> wfA le_j; case: (ltnP i (size A)) => [lt_i|]; last exact: ent_default_row.
by rewrite /ent nth_default // (wf_nth wfA lt_i).
Qed.

Lemma rv_inj n (u v : vec) : size u = n -> size v = n -> rv n u = rv n v -> u = v.
Proof.
move=> su sv /rowP h; apply: (@eq_from_nth _ 0); first by rewrite su sv.
by move=> i; rewrite su => lt_i; have := h (Ordinal lt_i); rewrite !mxE.
Qed.

Lemma mx_inj m n (A B : mat) : size A = m -> size B = m -> wf n A -> wf n B -> mx m n A = mx m n B -> A = B.
Proof.
move=> sA sB wA wB /matrixP h; apply: (@eq_from_nth _ [::]); first by rewrite sA sB.
move=> i; rewrite sA => lt_i.
apply: (@eq_from_nth _ 0); first by rewrite (wf_nth wA) ?sA // (wf_nth wB) ?sB.
move=> j; rewrite (wf_nth wA) ?sA // => lt_j.
by have := h (Ordinal lt_i) (Ordinal lt_j); rewrite !mxE.
Qed.

Lemma mat_ext m n (A B : mat) : size A = m -> size B = m -> wf n A -> wf n B ->
  (forall i j, (i < m)%N -> (j < n)%N -> ent A i j = ent B i j) -> A = B.
Proof.
move=> sA sB wA wB h; apply: (mx_inj sA sB wA wB); apply/matrixP => i j.
by rewrite !mxE h.
Qed.

(* sizes *)
Lemma size_vadd u v : size u = size v -> size (vadd u v) = size u.
Proof. by move=> h; rewrite size_map size_zip h minnn. Qed.
Lemma size_vsub u v : size u = size v -> size (vsub u v) = size u.
Proof. by move=> h; rewrite size_map size_zip h minnn. Qed.
Lemma size_vopp u : size (vopp u) = size u. Proof. by rewrite size_map. Qed.
Lemma size_vscale a u : size (vscale a u) = size u. Proof. by rewrite size_map. Qed.
Lemma size_vunit n j : size (vunit n j) = n. Proof. by rewrite size_mkseq. Qed.
Lemma size_vzero n : size (vzero n) = n. Proof. by rewrite size_nseq. Qed.
Lemma size_mulmv A v : size (mulmv A v) = size A. Proof. by rewrite size_map. Qed.
Lemma size_trl n A : size (trl n A) = n. Proof. by rewrite size_mkseq. Qed.
Lemma size_mull p A B : size (mull p A B) = size A. Proof. by rewrite size_map. Qed.
Lemma size_mkmat m n f : size (mkmat m n f) = m. Proof. by rewrite size_mkseq. Qed.
Lemma size_idl n : size (idl n) = n. Proof. by rewrite size_mkmat. Qed.
Lemma size_zerol m n : size (zerol m n) = m. Proof. by rewrite size_nseq. Qed.
Lemma size_madd A B : size A = size B -> size (madd A B) = size A.
Proof. by move=> h; rewrite size_map size_zip h minnn. Qed.
Lemma size_msub A B : size A = size B -> size (msub A B) = size A.
Proof. by move=> h; rewrite size_map size_zip h minnn. Qed.
Lemma size_mopp A : size (mopp A) = size A. Proof. by rewrite size_map. Qed.
Lemma size_mscale a A : size (mscale a A) = size A. Proof. by rewrite size_map. Qed.
Lemma size_hcat A B : size A = size B -> size (hcat A B) = size A.
Proof. by move=> h; rewrite size_map size_zip h minnn. Qed.
Lemma size_selcols c A : size (selcols c A) = size A. Proof. by rewrite size_map. Qed.
Lemma size_selrows r A : size (selrows r A) = size r. Proof. by rewrite size_map. Qed.
Lemma size_vsel c r : size (vsel c r) = size c. Proof. by rewrite size_map. Qed.
Lemma size_bdiag n p A B : size (bdiag n p A B) = (size A + size B)%N.
Proof. by rewrite size_cat !size_map. Qed.
Lemma size_vkron u v : size (vkron u v) = (size u * size v)%N.
Proof. by rewrite /vkron; elim: u => //= x u IH; rewrite size_cat size_map IH mulSn. Qed.
Lemma size_kron A B : size (kron A B) = (size A * size B)%N.
Proof. by rewrite /kron; elim: A => //= x u IH; rewrite size_cat size_map IH mulSn. Qed.

(* well-formedness *)
Lemma wf_mkmat m n f : wf n (mkmat m n f).
Proof. by apply/wfP => r /mapP [i _ ->]; rewrite size_mkseq. Qed.
Lemma wf_idl n : wf n (idl n). Proof. exact: wf_mkmat. Qed.
Lemma wf_zerol m n : wf n (zerol m n).
Proof. by apply/wfP => r /nseqP [-> _]; rewrite size_nseq. Qed.
Lemma wf_trl n A : wf (size A) (trl n A).
Proof. by apply/wfP => r /mapP [i _ ->]; rewrite size_map. Qed.
Lemma wf_mull p A B : wf p (mull p A B).
Proof. by apply/wfP => r /mapP [i _ ->]; rewrite size_map size_trl. Qed.
Lemma wf_mopp n A : wf n A -> wf n (mopp A).
Proof. by move/wfP => h; apply/wfP => r /mapP [s /h sz ->]; rewrite size_vopp. Qed.
Lemma wf_mscale n a A : wf n A -> wf n (mscale a A).
Proof. by move/wfP => h; apply/wfP => r /mapP [s /h sz ->]; rewrite size_vscale. Qed.
Lemma wf_selcols c A : wf (size c) (selcols c A).
Proof. by apply/wfP => r /mapP [s _ ->]; rewrite size_vsel. Qed.
Lemma wf_selrows n rs A : wf n A -> all (fun i => i < size A)%N rs -> wf n (selrows rs A).
Proof.
move=> wA /allP hr; apply/wfP => r /mapP [i /hr lt_i ->]; exact: wf_nth.
Qed.
Lemma mem_zip_l (T S : eqType) (s : seq T) (t : seq S) p : p \in zip s t -> (p.1 \in s) && (p.2 \in t).
Proof.
elim: s t => [|x s IH] [|y t] //=; rewrite inE => /orP [/eqP -> | /IH /andP [h1 h2]].
  by rewrite !inE !eqxx.
by rewrite !inE h1 h2 !orbT.
Qed.
Lemma wf_madd n A B : wf n A -> wf n B -> wf n (madd A B).
Proof.
move=> /wfP hA /wfP hB; apply/wfP => r /mapP [p /mem_zip_l /andP [/hA h1 /hB h2] ->].
by rewrite size_vadd ?h1 ?h2.
Qed.
Lemma wf_msub n A B : wf n A -> wf n B -> wf n (msub A B).
Proof.
move=> /wfP hA /wfP hB; apply/wfP => r /mapP [p /mem_zip_l /andP [/hA h1 /hB h2] ->].
by rewrite size_vsub ?h1 ?h2.
Qed.
Lemma wf_hcat n p A B : wf n A -> wf p B -> wf (n + p) (hcat A B).
Proof.
move=> /wfP hA /wfP hB; apply/wfP => r /mapP [q /mem_zip_l /andP [/hA h1 /hB h2] ->].
by rewrite size_cat h1 h2.
Qed.
Lemma wf_bdiag n p A B : wf n A -> wf p B -> wf (n + p) (bdiag n p A B).
Proof.
move=> /wfP hA /wfP hB; rewrite wf_cat; apply/andP; split.
  by apply/wfP => r /mapP [q /hA h ->]; rewrite size_cat h size_nseq.
by apply/wfP => r /mapP [q /hB h ->]; rewrite size_cat h size_nseq.
Qed.
Lemma wf_kron n p A B : wf n A -> wf p B -> wf (n * p) (kron A B).
Proof.
move=> /wfP hA /wfP hB; apply/wfP => r /flattenP [rs /mapP [u /hA hu ->]] /mapP [v /hB hv ->].
by rewrite size_vkron hu hv.
Qed.

(* vectors *)
Lemma nth_vadd u v i : size u = size v -> nth 0 (vadd u v) i = nth 0 u i + nth 0 v i.
Proof.
move=> h; case: (ltnP i (size u)) => [lt_i | le_i].
  by rewrite (nth_map (0, 0)) ?size_zip -?h ?minnn // nth_zip.
by rewrite !nth_default ?addr0 -?h // size_vadd.
Qed.
Lemma nth_vsub u v i : size u = size v -> nth 0 (vsub u v) i = nth 0 u i - nth 0 v i.
Proof.
move=> h; case: (ltnP i (size u)) => [lt_i | le_i].
  by rewrite (nth_map (0, 0)) ?size_zip -?h ?minnn // nth_zip.
by rewrite !nth_default ?subr0 -?h // size_vsub.
Qed.
Lemma nth_vopp u i : nth 0 (vopp u) i = - nth 0 u i.
Proof.
case: (ltnP i (size u)) => [lt_i | le_i]; first by rewrite (nth_map 0).
by rewrite !nth_default ?oppr0 // size_vopp.
Qed.
Lemma nth_vscale a u i : nth 0 (vscale a u) i = a * nth 0 u i.
Proof.
case: (ltnP i (size u)) => [lt_i | le_i]; first by rewrite (nth_map 0).
by rewrite !nth_default ?mulr0 // size_vscale.
Qed.
Lemma nth_vzero n i : nth 0 (vzero n) i = 0.
Proof. by rewrite nth_nseq; case: ifP. Qed.

Lemma rv_add n u v : size u = size v -> rv n (vadd u v) = rv n u + rv n v.
Proof. by move=> h; apply/rowP => j; rewrite !mxE nth_vadd. Qed.
Lemma rv_sub n u v : size u = size v -> rv n (vsub u v) = rv n u - rv n v.
Proof. by move=> h; apply/rowP => j; rewrite !mxE nth_vsub. Qed.
Lemma rv_opp n u : rv n (vopp u) = - rv n u.
Proof. by apply/rowP => j; rewrite !mxE nth_vopp. Qed.
Lemma rv_scale n a u : rv n (vscale a u) = a *: rv n u.
Proof. by apply/rowP => j; rewrite !mxE nth_vscale. Qed.
Lemma rv_zero n m : rv n (vzero m) = 0.
Proof. by apply/rowP => j; rewrite !mxE nth_vzero. Qed.
Lemma rv_eq0 n u : size u = n -> (rv n u == 0) = ~~ vany u.
Proof.
move=> su; apply/eqP/hasPn => [/rowP h x /(nthP 0) [j] | h].
  by rewrite su => lt_j <-; have := h (Ordinal lt_j); rewrite !mxE /= => ->; rewrite eqxx.
apply/rowP => j; rewrite !mxE; apply/eqP; rewrite -[_ == _]negbK; apply: h.
by rewrite mem_nth // su.
Qed.
Lemma cvE n v : cv n v = (rv n v)^T.
Proof. by apply/colP => j; rewrite !mxE. Qed.

Lemma dotE n u v : size u = n -> size v = n -> dot u v = \sum_(k < n) nth 0 u k * nth 0 v k.
Proof.
elim: n u v => [|n IH] [|x u] [|y v] //=; first by rewrite big_ord0.
by case=> su [sv]; rewrite big_ord_recl /= -IH.
Qed.

Lemma dot_rv n u v : size u = n -> size v = n -> rv n u *m (rv n v)^T = (dot u v)%:M.
Proof.
move=> su sv; apply/matrixP => i j; rewrite !ord1 !mxE (dotE su sv) eqxx mulr1n.
by apply: eq_bigr => k _; rewrite !mxE.
Qed.

(* entries and matrices of the operations *)
Lemma ent_mkmat m n f i j : (i < m)%N -> (j < n)%N -> ent (mkmat m n f) i j = f i j.
Proof. by move=> hi hj; rewrite /ent nth_mkseq // nth_mkseq. Qed.

Lemma mx_mkmat m n f : mx m n (mkmat m n f) = \matrix_(i, j) f i j.
Proof. by apply/matrixP => i j; rewrite !mxE ent_mkmat. Qed.

Lemma mx_idl n : mx n n (idl n) = 1%:M.
Proof. by rewrite mx_mkmat; apply/matrixP => i j; rewrite !mxE. Qed.

Lemma ent_zerol m n i j : ent (zerol m n) i j = 0.
Proof. by rewrite /ent nth_nseq; case: ifP => _; rewrite ?nth_nil // nth_nseq; case: ifP. Qed.

Lemma mx_zerol m n p q : mx m n (zerol p q) = 0.
Proof. by apply/matrixP => i j; rewrite !mxE ent_zerol. Qed.

Lemma ent_trl n A i j : (i < n)%N -> (j < size A)%N -> ent (trl n A) i j = ent A j i.
Proof. by move=> hi hj; rewrite /ent nth_mkseq // (nth_map [::]). Qed.

Lemma mx_trl m n A : size A = m -> mx n m (trl n A) = (mx m n A)^T.
Proof. by move=> sA; apply/matrixP => i j; rewrite !mxE ent_trl // sA. Qed.

Lemma nth_trl n A j : (j < n)%N -> nth [::] (trl n A) j = [seq nth 0 r j | r <- A].
Proof. by move=> h; rewrite nth_mkseq. Qed.

Lemma ent_mull p A B i j : (i < size A)%N -> (j < p)%N ->
  ent (mull p A B) i j = dot (nth [::] A i) [seq nth 0 r j | r <- B].
Proof. by move=> hi hj; rewrite /ent (nth_map [::]) // (nth_map [::]) ?size_trl // nth_trl. Qed.

Lemma mx_mull m n p A B : size A = m -> wf n A -> size B = n ->
  mx m p (mull p A B) = mx m n A *m mx n p B.
Proof.
move=> sA wA sB; apply/matrixP => i j; rewrite !mxE ent_mull ?sA //.
rewrite (@dotE n) ?(wf_nth wA) ?sA ?size_map //; apply: eq_bigr => k _.
by rewrite !mxE /ent (nth_map [::]) ?sB.
Qed.


Lemma cv_mulmv m n A v : size A = m -> wf n A -> size v = n -> cv m (mulmv A v) = mx m n A *m cv n v.
Proof.
move=> sA wA sv; apply/colP => i; rewrite !mxE (nth_map [::]) ?sA //.
rewrite (@dotE n) ?(wf_nth wA) ?sA //; apply: eq_bigr => k _.
by rewrite !mxE.
Qed.

Lemma ent_madd n A B i j : wf n A -> wf n B -> size A = size B ->
  ent (madd A B) i j = ent A i j + ent B i j.
Proof.
move=> wA wB sAB; case: (ltnP i (size A)) => lt_i; last first.
  by rewrite !ent_default_row ?addr0 ?size_madd -?sAB.
rewrite /ent (nth_map ([::], [::])) ?size_zip -?sAB ?minnn // nth_zip //=.
by rewrite nth_vadd // (wf_nth wA) // (wf_nth wB) // -sAB.
Qed.
Lemma mx_madd m n A B : wf n A -> wf n B -> size A = size B -> mx m n (madd A B) = mx m n A + mx m n B.
Proof. by move=> wA wB s; apply/matrixP => i j; rewrite !mxE (ent_madd _ _ wA wB s). Qed.

Lemma ent_msub n A B i j : wf n A -> wf n B -> size A = size B ->
  ent (msub A B) i j = ent A i j - ent B i j.
Proof.
move=> wA wB sAB; case: (ltnP i (size A)) => lt_i; last first.
  by rewrite !ent_default_row ?subr0 ?size_msub -?sAB.
rewrite /ent (nth_map ([::], [::])) ?size_zip -?sAB ?minnn // nth_zip //=.
by rewrite nth_vsub // (wf_nth wA) // (wf_nth wB) // -sAB.
Qed.
Lemma mx_msub m n A B : wf n A -> wf n B -> size A = size B -> mx m n (msub A B) = mx m n A - mx m n B.
Proof. by move=> wA wB s; apply/matrixP => i j; rewrite !mxE (ent_msub _ _ wA wB s). Qed.

Lemma ent_mopp A i j : ent (mopp A) i j = - ent A i j.
Proof.
case: (ltnP i (size A)) => lt_i; last by rewrite !ent_default_row ?oppr0 ?size_mopp.
by rewrite /ent (nth_map [::]) // nth_vopp.
Qed.
Lemma mx_mopp m n A : mx m n (mopp A) = - mx m n A.
Proof. by apply/matrixP => i j; rewrite !mxE ent_mopp. Qed.

Lemma ent_mscale a A i j : ent (mscale a A) i j = a * ent A i j.
Proof.
case: (ltnP i (size A)) => lt_i; last by rewrite !ent_default_row ?mulr0 ?size_mscale.
by rewrite /ent (nth_map [::]) // nth_vscale.
Qed.
Lemma mx_mscale m n a A : mx m n (mscale a A) = a *: mx m n A.
Proof. by apply/matrixP => i j; rewrite !mxE ent_mscale. Qed.

Lemma ent_cat A B i j : ent (A ++ B) i j = if (i < size A)%N then ent A i j else ent B (i - size A) j.
Proof. by rewrite /ent nth_cat; case: ifP. Qed.

Lemma mx_cat m1 m2 n A B : size A = m1 -> mx (m1 + m2) n (A ++ B) = col_mx (mx m1 n A) (mx m2 n B).
Proof.
move=> sA; apply/matrixP => i j; rewrite !mxE ent_cat sA.
by case: splitP => k ->; rewrite !mxE // addKn.
Qed.

Lemma ent_hcat n A B i j : wf n A -> size A = size B -> (i < size A)%N ->
  ent (hcat A B) i j = if (j < n)%N then ent A i j else ent B i (j - n).
Proof.
move=> wA sAB lt_i; rewrite /ent (nth_map ([::], [::])) ?size_zip -?sAB ?minnn // nth_zip //=.
by rewrite nth_cat (wf_nth wA).
Qed.

Lemma mx_hcat m n1 n2 A B : size A = m -> wf n1 A -> size B = m ->
  mx m (n1 + n2) (hcat A B) = row_mx (mx m n1 A) (mx m n2 B).
Proof.
move=> sA wA sB; apply/matrixP => i j; rewrite !mxE (ent_hcat _ wA) ?sA ?sB //.
by case: splitP => k ->; rewrite !mxE // addKn.
Qed.

Lemma rv_cat n1 n2 u v : size u = n1 -> rv (n1 + n2) (u ++ v) = row_mx (rv n1 u) (rv n2 v).
Proof.
move=> su; apply/rowP => j; rewrite !mxE nth_cat su.
by case: splitP => k ->; rewrite !mxE // addKn.
Qed.

Lemma mx_bdiag m1 m2 n1 n2 A B : size A = m1 -> size B = m2 -> wf n1 A -> wf n2 B ->
  mx (m1 + m2) (n1 + n2) (bdiag n1 n2 A B) = block_mx (mx m1 n1 A) 0 0 (mx m2 n2 B).
Proof.
move=> sA sB wA wB; rewrite /bdiag (mx_cat _ _ (m1 := m1)) ?size_map // /block_mx; congr col_mx.
  apply/matrixP => i j; rewrite !mxE /ent (nth_map [::]) ?sA // nth_cat (wf_nth wA) ?sA //.
  by case: splitP => k ->; rewrite !mxE // nth_nseq; case: ifP.
apply/matrixP => i j; rewrite !mxE /ent (nth_map [::]) ?sB // nth_cat size_nseq.
case: splitP => k ->; rewrite !mxE; first by rewrite nth_nseq ltn_ord.
by rewrite addKn.
Qed.

Lemma ent_selcols c A i j : (i < size A)%N -> (j < size c)%N -> ent (selcols c A) i j = ent A i (nth 0%N c j).
Proof. by move=> hi hj; rewrite /ent (nth_map [::]) // (nth_map 0%N). Qed.

Lemma ent_selrows rs A i j : (i < size rs)%N -> ent (selrows rs A) i j = ent A (nth 0%N rs i) j.
Proof. by move=> hi; rewrite /ent (nth_map 0%N). Qed.

(* Kronecker products *)
Lemma nth_vkron n p u v j : size u = n -> size v = p -> (j < n * p)%N ->
  nth 0 (vkron u v) j = nth 0 u (j %/ p) * nth 0 v (j %% p).
Proof.
move=> <- sv; rewrite /vkron; elim: u j => [|x u IH] j /=; first by rewrite mul0n.
rewrite mulSn nth_cat size_map sv => lt_j.
case: (ltnP j p) => [lt_jp | le_pj]; first by rewrite (nth_map 0) ?sv // divn_small // modn_small.
have p0 : (0 < p)%N by case: p {sv IH le_pj} lt_j => //; rewrite muln0.
rewrite -{2 3}(subnK le_pj) divnDr ?dvdnn // divnn p0 addn1 /= modnDr -IH //.
by rewrite -(ltn_add2r p) subnK // addnC.
Qed.

Lemma nth_kron p A B i : wf p B -> (i < size A * size B)%N ->
  nth [::] (kron A B) i = vkron (nth [::] A (i %/ size B)) (nth [::] B (i %% size B)).
Proof.
move=> _; rewrite /kron; elim: A i => [|x u IH] i /=; first by rewrite mul0n.
rewrite mulSn nth_cat size_map; set q := size B => lt_i.
case: (ltnP i q) => [lt_ip | le_pi]; first by rewrite (nth_map [::]) // divn_small // modn_small.
have p0 : (0 < q)%N by case: q {IH le_pi} lt_i => //; rewrite muln0.
rewrite -{2 3}(subnK le_pi) divnDr ?dvdnn // divnn p0 addn1 /= modnDr -IH //.
by rewrite -(ltn_add2r q) subnK // addnC.
Qed.

Lemma ent_kron n p A B i j : wf n A -> wf p B -> (i < size A * size B)%N -> (j < n * p)%N ->
  ent (kron A B) i j = ent A (i %/ size B) (j %/ p) * ent B (i %% size B) (j %% p).
Proof.
move=> wA wB hi hj; rewrite {1}/ent (nth_kron wB) //.
have sB0 : (0 < size B)%N by case: (size B) hi => //; rewrite muln0.
rewrite (@nth_vkron n p) //; first by rewrite (wf_nth wA) // ltn_divLR.
by rewrite (wf_nth wB) // ltn_mod.
Qed.

End Ops.

Arguments mx {R} m n A.
Arguments rv {R} n v.
Arguments cv {R} n v.
