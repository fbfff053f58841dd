(* Properties C45, C46 and C47: quasi-cyclic and lifted product codes. *)
From mathcomp Require Import all_ssreflect all_algebra zify.
From Verif Require Import LinAlg RowReduce Classical ClassicalProofs Symplectic Quantum QuantumProofs Css CssProofs CssGauge Product.
From Verif Require Import PermGroup Abelian GroupRing RingArray BBLayout QCPoly QuasiCyclic PropsClassical PropsCss PropsGroup PropsGroupRing.
Set Implicit Arguments.
Unset Strict Implicit.
Unset Printing Implicit Defensive.
Import GRing.Theory.
Local Open Scope ring_scope.

(* every row of X is orthogonal to every row of Z *)
Definition orthogonal (F : fieldType) (X Z : mat F) : Prop := forall r s, r \in X -> s \in Z -> dot r s = 0.

Lemma commuting_orthogonal (F : fieldType) n (X Z : mat F) : wf n X -> wf n Z ->
  commuting n (css_mat n X Z) <-> orthogonal X Z.
Proof.
move=> wX wZ; split=> [/(css_commP wX wZ) /matrixP h r s rX sZ | h].
  have hr := rX; have hs := sZ; rewrite -index_mem in hr; rewrite -index_mem in hs.
  have := h (Ordinal hr) (Ordinal hs); rewrite !mxE => <-; rewrite (dotE (n := n)) ?(wfP _ _ wX r rX) ?(wfP _ _ wZ s sZ) //.
  by apply: eq_bigr => k _; rewrite !mxE /ent /= !nth_index.
apply/(css_commP wX wZ)/matrixP => i j; rewrite !mxE -[RHS](h (nth [::] X i) (nth [::] Z j)) ?mem_nth //.
rewrite (dotE (n := n)) ?(wf_nth wX) ?(wf_nth wZ) //; apply: eq_bigr => k _; by rewrite !mxE.
Qed.

Section Props.
Variable F : fieldType.

(* ---------------------------------------------------------------------- quasi-cyclic codes *)
(* C45: the construction never fails, and the code is a valid stabilizer code, over any field and whatever galois makes of
   the integer coefficients *)
Theorem C45_quasi_cyclic (fld : int -> F) orders pa pb : all (ltn 0%N) orders -> (0 < size orders)%N ->
  exists c, [/\ qc_code fld orders pa pb = Some c, c_ok c, c_sub c = false, c_n c = (2 * foldr muln 1 orders)%N
    & orthogonal (c_x c) (c_z c)].
Proof.
move=> pos k0; have [c [e ok es [en ex ez]]] := qc_ok fld pos k0 pa pb; exists c; split=> //.
  by rewrite en qc_dimE size_map size_exps addnn mul2n.
have [[_ /(_ es) cm _ _ _] wx wz _ _] := ok; exact/(commuting_orthogonal wx wz).
Qed.

(* the value of a polynomial has, at each member of the group, the sum of the coefficients of the terms that give it *)
Theorem C45_evaluation (fld : int -> F) orders p g : all (ltn 0%N) orders -> fld 0 = 0 -> g \in exps orders ->
  coef (qc_eval fld orders p) (ab_perm orders g) = \sum_(t <- p | is_at orders t g) fld t.1.
Proof. by move=> pos f0 hg; apply: coef_eval. Qed.

(* C47: X-type and Z-type nontrivial logical operators have the same weights *)
Theorem C47_equal_weights (fld : int -> F) orders pa pb c w : all (ltn 0%N) orders -> (0 < size orders)%N ->
  qc_code fld orders pa pb = Some c ->
  (exists2 v, logical_word (c_n c) (c_x c) (c_z c) v & fweight v = w) <->
  (exists2 v, logical_word (c_n c) (c_z c) (c_x c) v & fweight v = w).
Proof.
move=> pos k0 e; have [c' [e' _ _ [en ex ez]]] := qc_ok fld pos k0 pa pb.
by have ec : c' = c by [rewrite e in e'; case: e']; rewrite -ec en ex ez; apply: qc_equal.
Qed.

(* hence the minimum weights agree *)
Theorem C47_equal_distances (fld : int -> F) orders pa pb c dx dz : all (ltn 0%N) orders -> (0 < size orders)%N ->
  qc_code fld orders pa pb = Some c ->
  (exists2 v, logical_word (c_n c) (c_x c) (c_z c) v & fweight v = dx) ->
  (forall v, logical_word (c_n c) (c_x c) (c_z c) v -> (dx <= fweight v)%N) ->
  (exists2 v, logical_word (c_n c) (c_z c) (c_x c) v & fweight v = dz) ->
  (forall v, logical_word (c_n c) (c_z c) (c_x c) v -> (dz <= fweight v)%N) -> dx = dz.
Proof.
move=> pos k0 e hx mx hz mz; apply/eqP; rewrite eqn_leq.
have /(C47_equal_weights _ pos k0 e) [v lv wv] := hz; have /(C47_equal_weights _ pos k0 e) [u lu wu] := hx.
by move: (mx _ lv) (mz _ lu); rewrite wv wu => -> ->.
Qed.

(* the lift of an AbelianGroup is its regular representation *)
Theorem C57_abelian_regular orders p : all (ltn 0%N) orders -> (0 < size orders)%N -> p \in ab_group orders ->
  ab_lift F orders p = regular_lift F (ab_group orders) p.
Proof. exact: ab_lift_regular. Qed.

(* -------------------------------------------------------------------- lifted product codes *)
Section Lifted.
Variables (G : group) (n : nat).
Hypothesis gG : grp_ok n G.
Variables (d : nat) (L : perm -> mat F).
Hypothesis rep : is_rep n d G L.

(* C46 for commutative groups *)
Theorem C46_lifted_product_abelian n1 n2 (A B : rarr F) : {in G &, forall p q, pmul p q = pmul q p} -> rwf G n1 A -> rwf G n2 B ->
  [/\ c_ok (lp_code d L n1 n2 A B), c_sub (lp_code d L n1 n2 A B) = false
    & orthogonal (c_x (lp_code d L n1 n2 A B)) (c_z (lp_code d L n1 n2 A B))].
Proof.
move=> cm wA wB; have ok := lp_ok gG rep cm wA wB; split=> //.
have [[_ /(_ erefl) h _ _ _] wx wz _ _] := ok; exact/(commuting_orthogonal wx wz).
Qed.

(* exactly when the checks commute, for any group: entries of A commute with the transposes of entries of B, in the lift *)
Theorem C46_lifted_product_iff n1 n2 (A B : rarr F) : rwf G n1 A -> rwf G n2 B ->
  orthogonal (c_x (lp_code d L n1 n2 A B)) (c_z (lp_code d L n1 n2 A B)) <->
  (forall i j k l, (i < size A)%N -> (k < n1)%N -> (l < size B)%N -> (j < n2)%N ->
     mx d d (rm_lift d L (rm_mul (rm_T (rent B l j)) (rent A i k))) = mx d d (rm_lift d L (rm_mul (rent A i k) (rm_T (rent B l j))))).
Proof.
move=> wA wB; have [sx wx] := lp_x_wf gG wA wB erefl erefl; have [sz wz] := lp_z_wf gG wA wB erefl erefl.
have [s1 w1 _] := ra_liftP gG rep wx sx; have [s2 w2 _] := ra_liftP gG rep wz sz.
rewrite -(lp_ok_iff gG rep wA wB) -(commuting_orthogonal w1 w2) (css_commP w1 w2); split=> [h | [[_ /(_ erefl) h _ _ _] _ _ _ _]].
  by apply: c_ok_mk.
exact/(css_commP w1 w2).
Qed.

(* subsystem lifted product codes make no such claim and are valid for every group *)
Theorem C46_subsystem n1 n2 (A B : rarr F) : rwf G n1 A -> rwf G n2 B ->
  c_ok (slp_code d L n1 n2 A B) /\ c_sub (slp_code d L n1 n2 A B).
Proof. by move=> wA wB; split=> //; apply: (slp_ok gG rep). Qed.

(* arrays with one entry give a two-block code, up to the sign of the Z-type checks *)
Theorem C46_two_block a b : rm_ok G a -> rm_ok G b ->
  exists2 c, tb_code d d (rm_lift d L a) (trl d (rm_lift d L b)) false = Some c &
    (c_n (lp_code d L 1 1 [:: [:: a]] [:: [:: b]]), c_x (lp_code d L 1 1 [:: [:: a]] [:: [:: b]]),
     c_z (lp_code d L 1 1 [:: [:: a]] [:: [:: b]])) = (c_n c, c_x c, mopp (c_z c)).
Proof. exact: (lp_two_block gG rep). Qed.
End Lifted.

(* with the regular lift the checks commute exactly when the entries do *)
Theorem C46_regular_iff (G : group) n n1 n2 (A B : rarr F) : grp_ok n G -> rwf G n1 A -> rwf G n2 B ->
  orthogonal (c_x (lp_code (size G) (regular_lift F G) n1 n2 A B)) (c_z (lp_code (size G) (regular_lift F G) n1 n2 A B)) <->
  (forall i j k l, (i < size A)%N -> (k < n1)%N -> (l < size B)%N -> (j < n2)%N ->
     rm_eq (rm_mul (rm_T (rent B l j)) (rent A i k)) (rm_mul (rent A i k) (rm_T (rent B l j)))).
Proof.
move=> gG wA wB; rewrite (C46_lifted_product_iff gG (regr F gG) wA wB).
split=> h i j k l hi hk hl hj; have oA := rwfP wA hi hk; have oT := ok_T gG (rwfP wB hl hj).
  by apply: (reg_faithful gG); rewrite ?(ok_mul gG) //; apply: h.
by apply: (reg_eq gG); rewrite ?(ok_mul gG) //; apply: h.
Qed.

(* entries lifted to 1 x 1 matrices give a hypergraph product code *)
Theorem C46_hypergraph (G : group) n (L : perm -> mat F) n1 n2 (A B : rarr F) : grp_ok n G -> is_rep n 1 G L -> rwf G n1 A -> rwf G n2 B ->
  c_x (lp_code 1 L n1 n2 A B) = hgp_x n1 n2 (ra_lift 1 L A) (ra_lift 1 L B) /\
  c_z (lp_code 1 L n1 n2 A B) = hgp_z n1 n2 (ra_lift 1 L A) (ra_lift 1 L B).
Proof. by move=> gG rep wA wB; apply: (lp_hypergraph gG rep). Qed.
End Props.

(* finding: over a nonabelian group LPCode marks itself as a stabilizer code although its checks do not commute *)
Notation F2 := [fieldType of 'F_2].
Definition s3a : rmem F2 := rm_make [:: (nth [::] S3 1, 1)].
Definition s3b : rmem F2 := rm_make [:: (nth [::] S3 3, 1)].
Theorem C46_nonabelian_refuted : exists (G : group) n (A B : rarr F2),
  [/\ grp_ok n G, rwf G 1 A, rwf G 1 B,
      c_sub (lp_code (size G) (regular_lift F2 G) 1 1 A B) = false
    & ~ orthogonal (c_x (lp_code (size G) (regular_lift F2 G) 1 1 A B)) (c_z (lp_code (size G) (regular_lift F2 G) 1 1 A B))].
Proof.
exists S3, 3%N, [:: [:: s3a]], [:: [:: s3b]]; split; [exact: ex_S3 | by vm_compute | by vm_compute | by [] |].
set X := c_x _; set Z := c_z _ => h.
have : has (fun r => has (fun s => dot r s != 0) Z) X by vm_compute.
by case/hasP => r rX /hasP [s sZ /eqP]; apply; apply: h.
Qed.

(* non-vacuity: with orders 3 and A = B = 1 + x over F_2 the word 111000 is a nontrivial logical operator of either type *)
Definition qcA : seq term := [:: (1, [:: 0]); (1, [:: 1])].
Definition z2 (k : int) : F2 := k%:~R.
Lemma not_span (F : fieldType) n (M : mat F) v u : wf n M -> size u = n -> mulmv M u = nseq (size M) 0 -> dot u v != 0 -> ~ span n M v.
Proof.
move=> wM su ku /eqP nz /spanP [sv] /submxP [c e]; apply: nz.
have h : sp n M *m (rv n u)^T = 0.
  by rewrite -cvE -(cv_mulmv erefl wM su) ku; apply/colP => i; rewrite !mxE nth_nseq; case: ifP.
have := dot_rv su sv; rewrite e trmx_mul => /(congr1 (fun M : 'M_1 => M^T)); rewrite trmx_mul trmx_mul !trmxK -mulmxA h mulmx0 tr_scalar_mx.
by move/matrixP => /(_ 0 0); rewrite !mxE eqxx mulr1n.
Qed.
Definition w3 : seq F2 := nth [::] (b2 [:: [:: 1;1;1;0;0;0]]%N) 0.
Definition is_logical n (A B : mat F2) v := [&& size v == n, mulmv B v == nseq (size B) 0, wf n A, mulmv A v == nseq (size A) 0 & dot v v != 0].
Lemma is_logicalP n A B v : is_logical n A B v -> logical_word n A B v.
Proof. by case/and5P => /eqP sv /eqP e wA /eqP k nz; split=> //; apply: (@not_span _ _ _ _ v). Qed.
Example ex_C45 : all (ltn 0%N) [:: 3]%N /\ (if qc_code z2 [:: 3]%N qcA qcA is Some c then
  (c_n c == 6%N) && (c_x c == b2 [:: [:: 1;1;0;1;1;0]; [:: 0;1;1;0;1;1]; [:: 1;0;1;1;0;1]]%N) else false).
Proof. by split; vm_compute. Qed.
Example ex_C45_evaluation : z2 0 = 0 /\ [:: 1]%N \in exps [:: 3]%N /\ coef (qc_eval z2 [:: 3]%N qcA) (ab_perm [:: 3]%N [:: 1]%N) == 1.
Proof. by split; [| split; vm_compute]. Qed.
Example ex_C47 : exists c, [/\ qc_code z2 [:: 3]%N qcA qcA = Some c, logical_word (c_n c) (c_x c) (c_z c) w3, logical_word (c_n c) (c_z c) (c_x c) w3 & fweight w3 = 3%N].
Proof.
have [c [e _ _ _ _]] := @C45_quasi_cyclic _ z2 [:: 3]%N qcA qcA isT isT; exists c.
have h : if qc_code z2 [:: 3]%N qcA qcA is Some c then is_logical (c_n c) (c_x c) (c_z c) w3 && is_logical (c_n c) (c_z c) (c_x c) w3 else false by vm_compute.
by rewrite e in h; case/andP: h => h1 h2; split; [| exact: is_logicalP h1 | exact: is_logicalP h2 |].
Qed.
(* the arrays of C46: a 2 x 1 array over the abelian group of orders 3, and the S3 arrays of the refutation *)
Definition ab3 := ab_group [:: 3]%N.
Definition lpA : rarr F2 := [:: [:: rm_make [:: (nth [::] ab3 1, 1); (nth [::] ab3 0, 1)]]; [:: rm_make [:: (nth [::] ab3 2, 1)]]].
Example ex_C46_abelian : [/\ grp_ok 3 ab3, is_rep 3 3 ab3 (regular_lift F2 ab3), {in ab3 &, forall p q, pmul p q = pmul q p} & rwf ab3 1 lpA].
Proof.
have g : grp_ok 3 ab3 by apply: grp_okP; vm_compute.
split; [by [] | exact: (regr F2 g) | exact: (@ab_comm [:: 3]%N isT) | by vm_compute].
Qed.
Example ex_C46_nonabelian : rwf S3 1 [:: [:: s3a]] /\ ~~ rm_eq (rm_mul (rm_T s3b) s3a) (rm_mul s3a (rm_T s3b)) /\
  rm_eq (rm_mul (rm_T s3a) s3a) (rm_mul s3a (rm_T s3a)).
Proof. by split; [| split]; vm_compute. Qed.

Print Assumptions C45_quasi_cyclic.
Print Assumptions C45_evaluation.
Print Assumptions C47_equal_weights.
Print Assumptions C47_equal_distances.
Print Assumptions C57_abelian_regular.
Print Assumptions C46_lifted_product_abelian.
Print Assumptions C46_lifted_product_iff.
Print Assumptions C46_regular_iff.
Print Assumptions C46_subsystem.
Print Assumptions C46_two_block.
Print Assumptions C46_hypergraph.
Print Assumptions C46_nonabelian_refuted.
