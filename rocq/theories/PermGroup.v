(* Permutation groups and their representations: model of qldpc/abstract.py:56-300 (GroupMember, Group) and 1120-1175
   (AbelianGroup, CyclicGroup).

   SymPy is external to /repo.  A SymPy permutation of {0, .., n-1} is the list of its values (array_form); SymPy composes
   permutations from left to right: (p * q)(i) = q(p(i)). *)
From mathcomp Require Import all_ssreflect all_algebra zify.
From mathcomp Require Import mxtens.
From Verif Require Import LinAlg Kron.
Set Implicit Arguments.
Unset Strict Implicit.
Unset Printing Implicit Defensive.
Import GRing.Theory.
Local Open Scope ring_scope.

(* ============================================================================== model *)
Definition perm := seq nat.
(* a permutation of {0, .., n-1} *)
Definition valid (n : nat) (p : perm) : bool := perm_eq p (iota 0 n).
(* abstract.py:71-74: p * q (external: SymPy Permutation.__mul__, for permutations of the same size) *)
Definition pmul (p q : perm) : perm := [seq nth 0%N q i | i <- p].
(* ~p (external: SymPy) *)
Definition pinv (p : perm) : perm := mkseq (fun i => index i p) (size p).
Definition pid (n : nat) : perm := iota 0 n.

(* abstract.py:120-260: a Group is modelled by the list of its members in the order of Group.generate() *)
Definition group := seq perm.
Definition grp_ok (n : nat) (G : group) : Prop :=
  [/\ uniq G, all (valid n) G, pid n \in G, forall p q, p \in G -> q \in G -> pmul p q \in G
    & forall p, p \in G -> pinv p \in G].
(* abstract.py:231-236: Group.index; size G stands for the ValueError *)
Definition gindex (G : group) (p : perm) : nat := index p G.

Section Lifts.
Variable R : ringType.
(* abstract.py:89-100: GroupMember.to_matrix *)
Definition to_matrix (p : perm) : mat R := mkmat (size p) (size p) (fun i j => (j == nth 0%N p i)%:R).
(* abstract.py:256-263: Group.regular_lift *)
Definition regular_lift (G : group) (p : perm) : mat R :=
  mkmat (size G) (size G) (fun i j => (i == gindex G (pmul p (nth [::] G j)))%:R).
(* np.roll(np.eye(n), s, axis=0) for 0 <= s *)
Definition roll_eye (n s : nat) : mat R := rotr (s %% n) (idl R n).
End Lifts.
(* abstract.py:271-278: Group.table *)
Definition table (G : group) : seq (seq nat) := [seq [seq gindex G (pmul a b) | b <- G] | a <- G].

(* a representation by orthogonal matrices of size d: products to products, the identity to the identity, inverses to
   transposes *)
Definition is_rep (R : ringType) (n d : nat) (G : group) (L : perm -> mat R) : Prop :=
  [/\ forall p, p \in G -> size (L p) = d /\ wf d (L p),
      forall p q, p \in G -> q \in G -> forall i j, (i < d)%N -> (j < d)%N ->
        ent (L (pmul p q)) i j = \sum_(k < d) ent (L p) i k * ent (L q) k j,
      forall i j, (i < d)%N -> (j < d)%N -> ent (L (pid n)) i j = (i == j)%:R
    & forall p, p \in G -> forall i j, (i < d)%N -> (j < d)%N -> ent (L (pinv p)) i j = ent (L p) j i].

(* ============================================================================= proofs *)
Section Perm.
Variable n : nat.
Implicit Types p q r : perm.

Lemma valid_size p : valid n p -> size p = n.
Proof. by move/perm_size; rewrite size_iota. Qed.
Lemma valid_uniq p : valid n p -> uniq p.
Proof. by move/perm_uniq ->; rewrite iota_uniq. Qed.
Lemma valid_mem p i : valid n p -> (i \in p) = (i < n)%N.
Proof. by move/perm_mem ->; rewrite mem_iota. Qed.
Lemma valid_nth p i : valid n p -> (i < n)%N -> (nth 0%N p i < n)%N.
Proof. by move=> v h; rewrite -(valid_mem _ v) mem_nth // (valid_size v). Qed.
Lemma valid_index p i : valid n p -> (i < n)%N -> (index i p < n)%N.
Proof. by move=> v h; rewrite -(valid_size v) index_mem (valid_mem _ v). Qed.
Lemma valid_indexK p i : valid n p -> (i < n)%N -> nth 0%N p (index i p) = i.
Proof. by move=> v h; rewrite nth_index // (valid_mem _ v). Qed.
Lemma valid_nthK p i : valid n p -> (i < n)%N -> index (nth 0%N p i) p = i.
Proof. by move=> v h; rewrite index_uniq ?(valid_size v) ?(valid_uniq v). Qed.

Lemma validP p : size p = n -> (forall i, (i < n)%N -> (nth 0%N p i < n)%N) ->
  (forall i j, (i < n)%N -> (j < n)%N -> nth 0%N p i = nth 0%N p j -> i = j) -> valid n p.
Proof.
move=> sp hlt inj; have up : uniq p.
  apply/(uniqP 0%N) => i j; rewrite !inE sp; exact: inj.
apply: uniq_perm => //; first exact: iota_uniq.
have sub : {subset p <= iota 0 n} by move=> x /(nthP 0%N) [i]; rewrite sp mem_iota => hi <-; rewrite /= add0n hlt.
by have [] := uniq_min_size up sub _; rewrite ?size_iota ?sp.
Qed.

Lemma perm_ext p q : valid n p -> valid n q -> (forall i, (i < n)%N -> nth 0%N p i = nth 0%N q i) -> p = q.
Proof.
move=> vp vq h; apply: (@eq_from_nth _ 0%N); first by rewrite !valid_size.
by move=> i; rewrite valid_size //; apply: h.
Qed.

Lemma valid_pid : valid n (pid n). Proof. exact: perm_refl. Qed.
Lemma nth_pid i : (i < n)%N -> nth 0%N (pid n) i = i. Proof. by move=> h; rewrite nth_iota. Qed.
Lemma nth_pmul p q i : valid n p -> (i < n)%N -> nth 0%N (pmul p q) i = nth 0%N q (nth 0%N p i).
Proof. by move=> v h; rewrite (nth_map 0%N) // (valid_size v). Qed.
Lemma nth_pinv p i : valid n p -> (i < n)%N -> nth 0%N (pinv p) i = index i p.
Proof. by move=> v h; rewrite nth_mkseq // (valid_size v). Qed.

Lemma valid_pmul p q : valid n p -> valid n q -> valid n (pmul p q).
Proof.
move=> vp vq; apply: validP; first by rewrite size_map valid_size.
  by move=> i h; rewrite nth_pmul // valid_nth // valid_nth.
move=> i j hi hj; rewrite !nth_pmul // => e.
have := congr1 (index^~ q) e; rewrite /= !valid_nthK ?valid_nth // => e'.
by have := congr1 (index^~ p) e'; rewrite /= !valid_nthK.
Qed.

Lemma valid_pinv p : valid n p -> valid n (pinv p).
Proof.
move=> vp; apply: validP; first by rewrite size_mkseq valid_size.
  by move=> i h; rewrite nth_pinv // valid_index.
move=> i j hi hj; rewrite !nth_pinv // => e.
by have := congr1 (nth 0%N p) e; rewrite !valid_indexK.
Qed.

Lemma pmulA p q r : valid n p -> valid n q -> valid n r -> pmul p (pmul q r) = pmul (pmul p q) r.
Proof.
move=> vp vq vr; apply: perm_ext; rewrite ?valid_pmul // => i h.
by rewrite !nth_pmul ?valid_pmul ?valid_nth.
Qed.
Lemma pmul1p p : valid n p -> pmul (pid n) p = p.
Proof. by move=> v; apply: perm_ext; rewrite ?valid_pmul ?valid_pid // => i h; rewrite nth_pmul ?valid_pid // nth_pid. Qed.
Lemma pmulp1 p : valid n p -> pmul p (pid n) = p.
Proof. by move=> v; apply: perm_ext; rewrite ?valid_pmul ?valid_pid // => i h; rewrite nth_pmul // nth_pid ?valid_nth. Qed.
Lemma pmulVp p : valid n p -> pmul (pinv p) p = pid n.
Proof.
move=> v; apply: perm_ext; rewrite ?valid_pmul ?valid_pid ?valid_pinv // => i h.
by rewrite nth_pmul ?valid_pinv // nth_pinv // nth_pid // valid_indexK.
Qed.
Lemma pmulpV p : valid n p -> pmul p (pinv p) = pid n.
Proof.
move=> v; apply: perm_ext; rewrite ?valid_pmul ?valid_pid ?valid_pinv // => i h.
by rewrite nth_pmul // nth_pinv ?valid_nth // nth_pid // valid_nthK.
Qed.
Lemma pmulKp p q : valid n p -> valid n q -> pmul (pinv p) (pmul p q) = q.
Proof. by move=> vp vq; rewrite pmulA ?valid_pinv // pmulVp // pmul1p. Qed.
Lemma pmulKVp p q : valid n p -> valid n q -> pmul p (pmul (pinv p) q) = q.
Proof. by move=> vp vq; rewrite pmulA ?valid_pinv // pmulpV // pmul1p. Qed.
Lemma pmulpK p q : valid n p -> valid n q -> pmul (pmul q p) (pinv p) = q.
Proof. by move=> vp vq; rewrite -pmulA ?valid_pinv // pmulpV // pmulp1. Qed.
Lemma pmulpKV p q : valid n p -> valid n q -> pmul (pmul q (pinv p)) p = q.
Proof. by move=> vp vq; rewrite -pmulA ?valid_pinv // pmulVp // pmulp1. Qed.
Lemma pinvK p : valid n p -> pinv (pinv p) = p.
Proof. by move=> v; rewrite -[LHS](pmulp1 (valid_pinv (valid_pinv v))) -(pmulVp v) pmulA ?valid_pinv // pmulVp ?valid_pinv // pmul1p. Qed.
Lemma pinvM p q : valid n p -> valid n q -> pinv (pmul p q) = pmul (pinv q) (pinv p).
Proof.
move=> vp vq; have vpq := valid_pmul vp vq; have vi := valid_pmul (valid_pinv vq) (valid_pinv vp).
rewrite -[RHS](pmulKp vpq vi) (pmulA vpq (valid_pinv vq) (valid_pinv vp)) (pmulpK vq vp) (pmulpV vp).
by rewrite pmulp1 // valid_pinv.
Qed.
Lemma pinv1 : pinv (pid n) = pid n.
Proof. by rewrite -[LHS](pmulp1 (valid_pinv valid_pid)) pmulVp // valid_pid. Qed.

(* cancellation: p * q = r iff q = p^-1 * r *)
Lemma pmul_eqV p q r : valid n p -> valid n q -> valid n r -> (pmul p q == r) = (q == pmul (pinv p) r).
Proof. by move=> vp vq vr; apply/eqP/eqP => [<- | ->]; rewrite ?pmulKp ?pmulKVp. Qed.
Lemma pmul_eqVr p q r : valid n p -> valid n q -> valid n r -> (pmul q p == r) = (q == pmul r (pinv p)).
Proof. by move=> vp vq vr; apply/eqP/eqP => [<- | ->]; rewrite ?pmulpK ?pmulpKV. Qed.

Section Group.
Variable G : group.
Hypothesis gG : grp_ok n G.
Lemma g_uniq : uniq G. Proof. by case: gG. Qed.
Lemma g_valid p : p \in G -> valid n p. Proof. by case: gG => _ /allP h _ _ _ /h. Qed.
Lemma g_one : pid n \in G. Proof. by case: gG. Qed.
Lemma g_mul p q : p \in G -> q \in G -> pmul p q \in G. Proof. by case: gG => _ _ _ h _; apply: h. Qed.
Lemma g_inv p : p \in G -> pinv p \in G. Proof. by case: gG => _ _ _ _; apply. Qed.
Lemma g_nth i : (i < size G)%N -> nth [::] G i \in G. Proof. exact: mem_nth. Qed.
Lemma gindexK p : p \in G -> nth [::] G (gindex G p) = p. Proof. exact: nth_index. Qed.
Lemma gindex_lt p : p \in G -> (gindex G p < size G)%N. Proof. by rewrite index_mem. Qed.
Lemma gindex_nth i : (i < size G)%N -> gindex G (nth [::] G i) = i. Proof. by move=> h; rewrite /gindex index_uniq ?g_uniq. Qed.
Lemma gindex_eq p i : p \in G -> (i < size G)%N -> (i == gindex G p) = (nth [::] G i == p).
Proof. by move=> pG h; apply/eqP/eqP => [-> | <-]; rewrite ?gindexK ?gindex_nth. Qed.
End Group.
End Perm.

Section Rep.
Variable R : ringType.

Lemma sum_delta1 N (f : 'I_N -> R) (k0 : nat) (hk : (k0 < N)%N) :
  \sum_(k < N) (val k == k0)%:R * f k = f (Ordinal hk).
Proof.
rewrite (bigD1 (Ordinal hk)) //= eqxx mul1r big1 ?addr0 // => k /eqP ne.
by rewrite (_ : (val k == k0) = false) ?mul0r //; apply/eqP => e; apply: ne; apply: val_inj.
Qed.

(* C57: permutation matrices *)
Lemma to_matrix_rep n (G : group) : grp_ok n G -> is_rep n n G (to_matrix R).
Proof.
move=> gG; have v p : p \in G -> valid n p by exact: (g_valid gG).
have sz p : p \in G -> size p = n by move/v/valid_size.
split=> [p pG | p q pG qG i j hi hj | i j hi hj | p pG i j hi hj].
- by rewrite /to_matrix (sz _ pG) size_mkseq; split=> //; apply/wfP => r /mapP [k _ ->]; rewrite size_mkseq.
- have pq := g_mul gG pG qG; rewrite /to_matrix !sz // ent_mkmat // (nth_pmul _ (v _ pG)) //.
  have hk := valid_nth (v _ pG) hi.
  under eq_bigr do rewrite !ent_mkmat //.
  by rewrite (sum_delta1 (fun k => (j == nth 0%N q k)%:R) hk).
- by rewrite /to_matrix (sz _ (g_one gG)) ent_mkmat // nth_pid // eq_sym.
have iG := g_inv gG pG.
rewrite /to_matrix !sz // !ent_mkmat // (nth_pinv (v _ pG)) //; congr ((nat_of_bool _)%:R).
by apply/eqP/eqP => ->; rewrite ?(valid_indexK (v _ pG)) ?(valid_nthK (v _ pG)).
Qed.

(* C57: the regular representation *)
Lemma regular_rep n (G : group) : grp_ok n G -> is_rep n (size G) G (regular_lift R G).
Proof.
move=> gG; have v p : p \in G -> valid n p by exact: (g_valid gG).
split=> [p pG | p q pG qG i j hi hj | i j hi hj | p pG i j hi hj].
- by rewrite size_mkseq; split=> //; apply/wfP => r /mapP [k _ ->]; rewrite size_mkseq.
- have gj := g_nth hj; have qj := g_mul gG qG gj; have hk := gindex_lt qj.
  rewrite ent_mkmat // -(pmulA (v _ pG) (v _ qG) (v _ gj)).
  under eq_bigr => k _ do rewrite !ent_mkmat //.
  rewrite (eq_bigr (fun k : 'I_(size G) => (val k == gindex G (pmul q (nth [::] G j)))%:R * (i == gindex G (pmul p (nth [::] G k)))%:R)).
    by rewrite (sum_delta1 (fun k : 'I_(size G) => (i == gindex G (pmul p (nth [::] G k)))%:R) hk) /= gindexK.
  by move=> k _; case: (val k == _); rewrite ?mul1r ?mul0r ?mulr1 ?mulr0.
- by rewrite ent_mkmat // (pmul1p (v _ (g_nth hj))) (gindex_nth gG).
rewrite !ent_mkmat //; have gi := g_nth hi; have gj := g_nth hj; have iG := g_inv gG pG.
rewrite !(gindex_eq gG) ?(g_mul gG) //; congr ((nat_of_bool _)%:R); rewrite ![nth [::] G _ == pmul _ _]eq_sym.
by rewrite (pmul_eqV (v _ iG) (v _ gj) (v _ gi)) (pinvK (v _ pG)) eq_sym.
Qed.
End Rep.
