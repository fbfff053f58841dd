(* Properties C57, C58, C76 and C77: groups and their representations. *)
From mathcomp Require Import all_ssreflect all_algebra zify.
From Verif Require Import LinAlg Classical ClassicalProofs PermGroup Abelian GroupTable PropsClassical PropsCss.
Set Implicit Arguments.
Unset Strict Implicit.
Unset Printing Implicit Defensive.
Import GRing.Theory.
Local Open Scope ring_scope.

(* finite checks *)
Definition grp_okb (n : nat) (G : group) : bool :=
  [&& uniq G, all (valid n) G, pid n \in G, all (fun p => all (fun q => pmul p q \in G) G) G & all (fun p => pinv p \in G) G].
Lemma grp_okP n G : grp_okb n G -> grp_ok n G.
Proof.
case/and5P => h1 h2 h3 /allP h4 /allP h5; split=> // p q pG qG.
by move/allP: (h4 p pG); apply.
Qed.
Definition is_repb (F : fieldType) (n d : nat) (G : group) (L : perm -> mat F) : bool :=
  [&& all (fun p => (size (L p) == d) && wf d (L p)) G, all (fun p => all (fun q => L (pmul p q) == mull d (L p) (L q)) G) G,
      L (pid n) == idl F d & all (fun p => L (pinv p) == trl d (L p)) G].
Lemma is_repP (F : fieldType) n d G (L : perm -> mat F) : is_repb n d G L -> is_rep n d G L.
Proof.
case/and4P => /allP h1 /allP h2 /eqP h3 /allP h4.
have s p : p \in G -> size (L p) = d /\ wf d (L p) by move=> /h1 /andP [/eqP -> ->].
apply: is_repM => // [p q pG qG | | p pG].
- have [sp wp] := s p pG; have [sq wq] := s q qG; move/allP: (h2 p pG) => /(_ q qG) /eqP ->; exact: mx_mull.
- by rewrite h3 mx_idl.
by have [sp wp] := s p pG; move/eqP: (h4 p pG) => ->; rewrite mx_trl.
Qed.

(* ------------------------------------------------------------------------------- C57 *)
(* the permutation matrices of any permutation group, over any ring *)
Theorem C57_permutation_matrices (R : ringType) n G : grp_ok n G -> is_rep n n G (to_matrix R).
Proof. exact: to_matrix_rep. Qed.
(* the regular representation, which is the default lift of a group *)
Theorem C57_regular_lift (R : ringType) n G : grp_ok n G -> is_rep n (size G) G (regular_lift R G).
Proof. exact: regular_rep. Qed.
(* AbelianGroup: the listed members form a group, it is commutative, and both lifts are representations of it *)
Theorem C57_abelian (R : comRingType) orders : all (ltn 0%N) orders -> (0 < size orders)%N ->
  [/\ grp_ok (sumn orders) (ab_group orders), size (ab_group orders) = foldr muln 1%N orders,
      forall p q, p \in ab_group orders -> q \in ab_group orders -> pmul p q = pmul q p,
      is_rep (sumn orders) (foldl muln 1%N orders) (ab_group orders) (ab_lift R orders)
    & is_rep (sumn orders) (sumn orders) (ab_group orders) (ab_lift_sum R orders)].
Proof.
move=> pos n0; split; [exact: ab_group_ok | by rewrite size_map size_exps | exact: ab_comm | exact: ab_lift_rep | exact: ab_sum_rep].
Qed.
(* CyclicGroup, whatever the order in which its members are listed *)
Theorem C57_cyclic (R : comRingType) o (G : group) : (0 < o)%N -> perm_eq G (ab_group [:: o]) ->
  is_rep o o G (cyclic_lift R o).
Proof.
move=> o0 /perm_mem mG; have pos : all (ltn 0%N) [:: o] by rewrite /= o0.
have [h1 h2 h3 h4] := @ab_lift_rep R [:: o] pos isT; rewrite /= addn0 mul1n in h1 h2 h3 h4.
have L p : ab_lift R [:: o] p = cyclic_lift R o p by rewrite /ab_lift /ab_mats /= subn0.
by split=> [p | p q | | p]; rewrite ?mG => *; rewrite -?L; [apply: h1 | rewrite h2 //; apply: eq_bigr => k _; rewrite !L | apply: h3 | apply: h4].
Qed.
(* the lift of QuaternionGroup *)
Theorem C57_quaternion : grp_ok 8 quat_table /\ is_rep 8 4 quat_table (table_lift quat_table quat_lift).
Proof. by split; [apply: grp_okP | apply: (@is_repP [fieldType of 'F_3])]; vm_compute. Qed.

Definition S3 : group := [:: [:: 0;1;2]; [:: 1;2;0]; [:: 2;0;1]; [:: 1;0;2]; [:: 0;2;1]; [:: 2;1;0]]%N.
Example ex_S3 : grp_ok 3 S3. Proof. by apply: grp_okP; vm_compute. Qed.
Example ex_C57_S3 : pmul (nth [::] S3 1) (nth [::] S3 3) != pmul (nth [::] S3 3) (nth [::] S3 1) /\
  regular_lift [ringType of 'F_2] S3 (nth [::] S3 3) != idl _ 6.
Proof. by split; vm_compute. Qed.
Example ex_C57_abelian : all (ltn 0%N) [:: 2; 3]%N /\ (size (ab_group [:: 2; 3]%N) == 6%N).
Proof. by split; vm_compute. Qed.
Example ex_C57_cyclic : perm_eq [:: [:: 0;1;2]; [:: 2;0;1]; [:: 1;2;0]]%N (ab_group [:: 3%N]).
Proof. by vm_compute. Qed.

(* ------------------------------------------------------------------------------- C77 *)
(* the class documentation of CyclicGroup says that <i| L(g^p) = <i + p mod R|: it is <i - p mod R| *)
Theorem C77_cyclic_shift (R : comRingType) o p i j : (0 < o)%N -> (p < o)%N -> (i < o)%N -> (j < o)%N ->
  ent (cyclic_lift R o (ab_perm [:: o] [:: p])) i j = ((j + p) %% o == i)%N%:R.
Proof.
move=> o0 hp hi hj; have pos : all (ltn 0%N) [:: o] by rewrite /= o0.
have -> : cyclic_lift R o (ab_perm [:: o] [:: p]) = roll_eye R o p.
  congr (roll_eye R o _); have -> : ab_perm [:: o] [:: p] = mkseq (fun y => (0 + (y + p) %% o)%N) o by rewrite /ab_perm /= cats0.
  by rewrite nth_mkseq // !add0n modn_small.
by rewrite ent_roll // eq_sym.
Qed.
Theorem C77_cyclic_doc_refuted : exists o p i j : nat, [/\ (p < o)%N, (i < o)%N, (j < o)%N
  & ent (cyclic_lift [comRingType of 'F_2] o (ab_perm [:: o] [:: p])) i j != (j == (i + p) %% o)%N%:R].
Proof. by exists 3%N, 1%N, 0%N, 1%N; split; vm_compute. Qed.

(* ------------------------------------------------------------------------------- C58 *)
(* from_table: for the table of a group the rows form a group, but its product is the opposite of that of the table *)
Theorem C58_from_table t : is_table t ->
  [/\ from_table t = Some t, grp_ok (size t) t, forall a, (a < size t)%N -> table_index t (nth [::] t a) = a
    & forall p q, p \in t -> q \in t -> table_index t (pmul p q) = tb t (table_index t q) (table_index t p)].
Proof.
by move=> tt; have [h1 h2] := from_table_ok tt; split=> // [a | p q]; [apply: table_index_row | apply: from_table_index].
Qed.
(* the table of any group is accepted *)
Theorem C58_group_table n G : grp_ok n G -> is_table (table G) /\
  forall a b, (a < size G)%N -> (b < size G)%N -> nth [::] G (tb (table G) a b) = pmul (nth [::] G a) (nth [::] G b).
Proof.
move=> gG; split; first exact: group_table gG.
move=> a b ha hb; rewrite /tb (nth_map [::]) // (nth_map [::]) // gindexK // (g_mul gG) // mem_nth //.
Qed.
Theorem C58_from_table_refuted : exists t p q, [/\ is_table t, p \in t, q \in t
  & table_index t (pmul p q) <> tb t (table_index t p) (table_index t q)].
Proof.
exists (table S3), (nth [::] (table S3) 1), (nth [::] (table S3) 3); split; first exact: group_table ex_S3.
- by vm_compute.
- by vm_compute.
by apply/eqP; vm_compute.
Qed.
(* from_generating_mats: the constructed group, its generators and its lift; products are lifted to products in the
   opposite order *)
Theorem C58_generating_mats (F : fieldType) (d fuel : nat) (mats : seq (mat F)) gens table idx :
  (0 < size mats)%N -> uniq mats -> all (square d) mats -> gen_mats (mull d) [::] fuel mats = Some (gens, table, idx) ->
  let lift := gm_lift [::] table idx in
  [/\ grp_ok (size table) table, {subset gens <= table} /\ size gens = size mats,
      forall i, (i < size mats)%N -> lift (nth [::] gens i) = nth [::] mats i,
      forall p q, p \in table -> q \in table -> lift (pmul p q) = mull d (lift q) (lift p)
    & forall p, p \in table -> exists w, all (fun i => i < size mats)%N w /\ p = word_perm (size table) gens w].
Proof. exact: gen_mats_group. Qed.

Definition sl22 : seq (mat [fieldType of 'F_2]) := sl_gens 2 2 1.
Lemma unit2 (F : fieldType) (A B : mat F) : size A = 2%N -> wf 2 A -> size B = 2%N -> mull 2 A B == idl F 2 -> square 2 A.
Proof.
move=> sA wA sB /eqP e; rewrite /square sA wA /=; apply: (@proj1 _ (mx 2 2 B \in unitmx)); apply: mulmx1_unit.
by rewrite -(mx_mull _ sA wA sB) e mx_idl.
Qed.
Lemma sl22_square : all (square 2) sl22.
Proof.
apply/andP; split; last rewrite andbT.
  by apply: (@unit2 _ _ (b2 [:: [:: 1;1]; [:: 0;1]]%N)); vm_compute.
by apply: (@unit2 _ _ (b2 [:: [:: 0;1]; [:: 1;0]]%N)); vm_compute.
Qed.
Example ex_C58 : [/\ (0 < size sl22)%N, uniq sl22, all (square 2) sl22
  & if gen_mats (mull 2) [::] 4 sl22 is Some (gens, table, idx) then (size table == 6%N) && (size gens == 2%N) else false].
Proof.
split; [by vm_compute | by vm_compute | exact: sl22_square | by vm_compute].
Qed.
(* ... so the lift is not a homomorphism *)
Theorem C58_generating_mats_refuted : exists (mats : seq (mat [fieldType of 'F_2])) gens table idx p q,
  [/\ gen_mats (mull 2) [::] 4 mats = Some (gens, table, idx), p \in gens, q \in gens
    & gm_lift [::] table idx (pmul p q) <> mull 2 (gm_lift [::] table idx p) (gm_lift [::] table idx q)].
Proof.
exists sl22; pose P (r : seq (seq nat) * seq (seq nat) * seq (nat * mat [fieldType of 'F_2])) :=
  let: (gens, table, idx) := r in let p := nth [::] gens 0 in let q := nth [::] gens 1 in
  [&& p \in gens, q \in gens & gm_lift [::] table idx (pmul p q) != mull 2 (gm_lift [::] table idx p) (gm_lift [::] table idx q)].
have [[[gens table] idx] e /and3P [h1 h2 /eqP h3]] : exists2 r, gen_mats (mull 2) [::] 4 sl22 = Some r & P r.
  by apply: (@some_with _ _ P); vm_compute.
exists gens, table, idx, (nth [::] gens 0), (nth [::] gens 1); split; [exact: e | exact: h1 | exact: h2 | exact: h3].
Qed.
(* a repeated generator breaks the constructor: it builds a table whose rows are not permutations *)
Theorem C58_repeated_generator_refuted : exists A : mat [fieldType of 'F_2],
  gen_mats (mull 2) [::] 2 [:: A] <> None /\ forall fuel, gen_mats (mull 2) [::] fuel [:: A; A] = None.
Proof.
exists (b2 [:: [:: 0;1]; [:: 1;0]]%N); split; first by apply/eqP; vm_compute.
by case=> [|[|[|fuel]]]; vm_compute.
Qed.

(* ------------------------------------------------------------------------------- C76 *)
(* the linear representation of SL(d, q): the lift of the permutation of a matrix is that matrix, and products are lifted to
   products in the opposite order; el lists the nonzero elements of the field *)
Theorem C76_sl_lift (F : fieldType) (el : seq F) (d : nat) (A B : mat F) : uniq (0 :: el) -> (forall x, x \in 0 :: el) ->
  square d A -> square d B ->
  let T := sl_space (0 :: el) d in
  [/\ valid (size T) (sl_perm T A), sl_lift T d (sl_perm T A) = A,
      pmul (sl_perm T A) (sl_perm T B) = sl_perm T (mull d B A)
    & sl_lift T d (pmul (sl_perm T A) (sl_perm T B)) = mull d B A].
Proof.
move=> uel ael sA sB; set T := sl_space _ _.
have uT0 := uniq_product d uel; have hd := product_head el d.
have uT : uniq T by move: uT0; rewrite hd /= => /andP [].
have hT v : (v \in T) = (size v == d) && (v != nseq d 0).
  have := mem_product (0 :: el) d v; rewrite (_ : all _ v) ?andbT; last by apply/allP => x _; apply: ael.
  rewrite hd in_cons -/(sl_space _ _) -/T => e; have n0 : nseq d 0 \notin T by move: uT0; rewrite hd /= => /andP [].
  by move: e; case: eqP => [-> _ | _ <-] /=; rewrite ?andbF ?andbT //; apply/negbTE.
split; [exact: sl_valid | exact: sl_lift_perm | exact: sl_perm_mul |].
by rewrite (sl_perm_mul uT hT sA sB) (sl_lift_perm hT (sq_closed sB sA)).
Qed.
Theorem C76_sl_lift_refuted : exists A B : mat [fieldType of 'F_2], [/\ A \in sl22, B \in sl22
  & let T := sl_space [:: 0; 1] 2 in
    sl_lift T 2 (pmul (sl_perm T A) (sl_perm T B)) <> mull 2 (sl_lift T 2 (sl_perm T A)) (sl_lift T 2 (sl_perm T B))].
Proof. by exists (nth [::] sl22 0), (nth [::] sl22 1); split; [vm_compute | vm_compute | apply/eqP; vm_compute]. Qed.
Example ex_C76 : [/\ uniq [:: 0; 1 : 'F_2], forall x, x \in [:: 0; 1 : 'F_2] & all (square 2) sl22].
Proof.
split; [by vm_compute | | exact: sl22_square].
by move=> x; rewrite !inE; case: x => [[|[|k]] h]; apply/orP; [left | right | ].
Qed.

Print Assumptions C57_permutation_matrices.
Print Assumptions C57_regular_lift.
Print Assumptions C57_abelian.
Print Assumptions C57_cyclic.
Print Assumptions C57_quaternion.
Print Assumptions C77_cyclic_shift.
Print Assumptions C77_cyclic_doc_refuted.
Print Assumptions C58_from_table.
Print Assumptions C58_group_table.
Print Assumptions C58_from_table_refuted.
Print Assumptions C58_generating_mats.
Print Assumptions C58_generating_mats_refuted.
Print Assumptions C58_repeated_generator_refuted.
Print Assumptions C76_sl_lift.
Print Assumptions C76_sl_lift_refuted.
